(** * WriteProofs: runs whose writing fails *)
From Coq Require Import Ascii String List NArith Arith Bool Lia.
From Verif Require Import Base Spec DfaModel ValidateModel TableSpec TableModel ApiModel Messages CliModel FileModel CliSpec FileSpec CliProofs FileProofs WriteModel WriteSpec.
Import ListNotations.
Close Scope string_scope.
Open Scope list_scope.

Lemma arrived_app a b st : arrived (a ++ b) st = arrived a st ++ arrived b st.
Proof. apply flat_map_app. Qed.

Lemma split_at {A} (a b c : list A) x d : a ++ b = c ++ x :: d ->
  (exists a', a = c ++ x :: a' /\ d = a' ++ b) \/ (exists c', c = a ++ c' /\ b = c' ++ x :: d).
Proof.
  revert c. induction a as [| y a IH]; intros c E.
  - right. exists c. auto.
  - destruct c as [| z c]; cbn [app] in E; injection E as <- E.
    + left. exists a. auto.
    + destruct (IH _ E) as [(a' & -> & ->) | (c' & -> & ->)]; [ left; exists a' | right; exists c' ]; auto.
Qed.

(** the first failing write, or none *)
Lemma perform_cases fails todo : forall done,
  (perform fails done todo = (done ++ todo, 0%N) /\
   forall before st s after, todo = before ++ (st, s) :: after -> s <> [] -> ask fails (done ++ before) st s = None) \/
  exists before st s after n, todo = before ++ (st, s) :: after /\ s <> [] /\ ask fails (done ++ before) st s = Some n /\
    perform fails done todo = (done ++ before ++ [(st, firstn n s)], 101%N) /\
    forall before' st' s' after', before = before' ++ (st', s') :: after' -> s' <> [] -> ask fails (done ++ before') st' s' = None.
Proof.
  induction todo as [| [st s] todo IH]; intros done.
  - left. cbn [perform]. rewrite app_nil_r. split; auto. intros [|] ? ? ? E; discriminate E.
  - assert (C : s <> [] -> ask fails done st s = None \/ exists n, ask fails done st s = Some n) by (intros _; destruct (ask fails done st s); eauto).
    assert (K : (s = [] \/ ask fails done st s = None) -> perform fails done (@cons write (st, s) todo) = perform fails (done ++ @cons write (st, s) nil) todo).
    { cbn [perform]. intros [-> | E]; auto. destruct s; auto. rewrite E. auto. }
    assert (G : (s = [] \/ ask fails done st s = None) -> forall b' st' s' a', @cons write (st, s) todo = b' ++ (st', s') :: a' -> s' <> [] ->
       (forall b'', b' = (st, s) :: b'' -> ask fails (done ++ b') st' s' = None) -> ask fails (done ++ b') st' s' = None).
    { intros Hs b' st' s' a' E N H. destruct b' as [| x b']; cbn in E.
      - injection E as <- <- <-. rewrite app_nil_r. destruct Hs as [-> | Hs]; [ contradiction |]. congruence.
      - injection E as <- _. apply (H b'). auto. }
    destruct (list_eq_dec N.eq_dec s []) as [Es | Ns]; [| destruct (C Ns) as [E | (n & E)] ].
    1, 2: rewrite K by auto; destruct (IH (done ++ @cons write (st, s) nil)) as [[-> H] | (before & st' & s' & after & n & -> & Ns' & F & -> & H)];
      [ left; rewrite <- app_assoc; split; auto; intros b' st' s' a' E' N; apply (G (ltac:(auto)) b' st' s' a' E' N);
        intros b'' ->; cbn in E'; injection E' as E'; specialize (H _ _ _ _ E' N); rewrite <- app_assoc in H; exact H
      | right; exists ((st, s) :: before), st', s', after, n; rewrite <- app_assoc in F; cbn in F; repeat split; auto;
        [ rewrite <- !app_assoc; reflexivity |];
        intros b' st'' s'' a' E' N; destruct b' as [| x b']; cbn in E';
        [ injection E' as <- <- _; rewrite app_nil_r; subst; (contradiction || assumption)
        | injection E' as <- E'; specialize (H _ _ _ _ E' N); rewrite <- app_assoc in H; exact H ] ].
    right. exists [], st, s, todo, n. rewrite app_nil_r. repeat split; auto.
    + cbn [perform]. destruct s; [ contradiction |]. rewrite E. auto.
    + intros [|] ? ? ? E'; discriminate E'.
Qed.

(** ** The lines of a run *)
Definition marked (ev : list event) : list (bool * str) :=
  flat_map (fun e => match e with Out s => [(true, s)] | Log s => [(false, s)] | Warn _ => [] end) ev.
Lemma marked_results ev : results (marked ev) = outs ev.
Proof. induction ev as [| [s | s | s] ev IH]; try first [ exact IH | exact (f_equal (cons s) IH) ]; auto. Qed.
Lemma marked_logged ev : logged (marked ev) = log_lines ev.
Proof. induction ev as [| [s | s | s] ev IH]; try first [ exact IH | exact (f_equal (cons s) IH) ]; auto. Qed.
Lemma with_lf_app a b : with_lf (a ++ b) = with_lf a ++ with_lf b.
Proof. unfold with_lf. rewrite ?map_app, ?concat_app, ?flat_map_app. auto. Qed.
Lemma texts_app a b : texts (a ++ b) = texts a ++ texts b.
Proof. apply map_app. Qed.
Lemma results_app a b : results (a ++ b) = results a ++ results b.
Proof. unfold results. rewrite filter_app, map_app. auto. Qed.
Lemma arrived_stdout f ev : arrived (flat_map (event_writes f) ev) ToStdout = with_lf (texts (marked ev)).
Proof.
  induction ev as [| [s | s | s] ev IH]; auto; cbn [flat_map event_writes marked]; rewrite ?arrived_app, IH; cbn.
  all: unfold with_lf, println; destruct f; cbn; rewrite ?app_nil_r; auto.
Qed.
Lemma arrived_stderr f ev : warns ev = [] -> arrived (flat_map (event_writes f) ev) ToStderr = [].
Proof.
  induction ev as [| [s | s | s] ev IH]; auto; cbn [flat_map event_writes]; rewrite ?arrived_app; intros H; try discriminate H; rewrite IH by exact H; cbn; auto.
  destruct f; auto.
Qed.
Lemma arrived_file f ev : arrived (flat_map (event_writes f) ev) ToFile = if f then concat (results (marked ev)) else [].
Proof.
  induction ev as [| [s | s | s] ev IH]; [ destruct f; auto | | | ]; cbn [flat_map event_writes]; rewrite ?arrived_app, IH; cbn; auto.
  destruct f; cbn; rewrite ?app_nil_r; auto.
Qed.
Lemma warns_app a b : warns (a ++ b) = warns a ++ warns b.
Proof. apply flat_map_app. Qed.

Lemma split_events f ev : warns ev = [] -> forall before st s after, flat_map (event_writes f) ev = before ++ (st, s) :: after ->
  exists ev1 e ev2, ev = ev1 ++ e :: ev2 /\ exists b l, marked [e] = [(b, l)] /\
    ((st = ToStdout /\ s = l ++ [10%N] /\ before = flat_map (event_writes f) ev1) \/
     (f = true /\ b = true /\ st = ToFile /\ s = l /\ before = flat_map (event_writes f) ev1 ++ [(ToStdout, l ++ [10%N])])).
Proof.
  induction ev as [| e ev IH]; intros W before st s after E; [ destruct before; discriminate E |].
  assert (W' : warns ev = []) by (destruct e; [ exact W | exact W | discriminate W ]).
  assert (M : exists b l, marked [e] = [(b, l)] /\ event_writes f e = (ToStdout, l ++ [10%N]) :: (if f && b then [(ToFile, l)] else [])).
  { destruct e as [l | l | l]; [ exists true, l | exists false, l | discriminate W ]; rewrite ?andb_true_r, ?andb_false_r; split; auto. }
  destruct M as (b & l & M & X). cbn [flat_map] in E. rewrite X in E.
  destruct before as [| x before]; cbn [app] in E.
  { injection E as <- <- _. exists [], e, ev. split; auto. exists b, l. split; auto. }
  injection E as <- E.
  assert (K : forall p, event_writes f e = (ToStdout, l ++ [10%N]) :: p -> forall before', before = p ++ before' -> flat_map (event_writes f) ev = before' ++ (st, s) :: after ->
    exists ev1 e0 ev2, e :: ev = ev1 ++ e0 :: ev2 /\ exists b l0, marked [e0] = [(b, l0)] /\
    ((st = ToStdout /\ s = l0 ++ [10%N] /\ (ToStdout, l ++ [10%N]) :: before = flat_map (event_writes f) ev1) \/
     (f = true /\ b = true /\ st = ToFile /\ s = l0 /\ (ToStdout, l ++ [10%N]) :: before = flat_map (event_writes f) ev1 ++ [(ToStdout, l0 ++ [10%N])]))).
  { intros p Ep before' -> E'. destruct (IH W' _ _ _ _ E') as (ev1 & e0 & ev2 & -> & b0 & l0 & M0 & H).
    exists (e :: ev1), e0, ev2. split; auto. exists b0, l0. split; auto. cbn [flat_map]. rewrite Ep.
    destruct H as [(-> & -> & ->) | (-> & -> & -> & -> & ->)]; [ left | right ]; repeat split; auto. cbn. rewrite <- app_assoc. auto. }
  destruct (f && b) eqn:Fb.
  - apply andb_true_iff in Fb as [-> ->]. destruct before as [| x before]; cbn [app] in E.
    + injection E as <- <- _. exists [], e, ev. split; auto. exists true, l. auto 8.
    + injection E as <- E. exact (K _ X before eq_refl E).
  - exact (K _ X before eq_refl E).
Qed.

Lemma marked_split ev : warns ev = [] -> forall before b l after, marked ev = before ++ (b, l) :: after ->
  exists ev1 e ev2, ev = ev1 ++ e :: ev2 /\ marked ev1 = before /\ e = (if b then Out l else Log l).
Proof.
  induction ev as [| e ev IH]; intros W before b l after E; [ destruct before; discriminate E |].
  assert (W' : warns ev = []) by (destruct e; [ exact W | exact W | discriminate W ]).
  assert (M : exists b l, marked (e :: ev) = (b, l) :: marked ev /\ marked [e] = [(b, l)] /\ e = (if b then Out l else Log l)).
  { destruct e as [s | s | s]; [ exists true, s | exists false, s | discriminate W ]; auto. }
  destruct M as (b0 & l0 & M & M' & Ee). rewrite M in E. destruct before as [| x before]; cbn [app] in E.
  - injection E as <- <- _. exists [], e, ev. auto.
  - injection E as <- E. destruct (IH W' _ _ _ _ E) as (ev1 & e1 & ev2 & -> & <- & E1). exists (e :: ev1), e1, ev2. split; auto. split; auto.
    change (marked (e :: ev1)) with (marked ([e] ++ ev1)). unfold marked in *. rewrite flat_map_app, M'. auto.
Qed.
Lemma marked_app a b : marked (a ++ b) = marked a ++ marked b.
Proof. apply flat_map_app. Qed.

(** ** Every run *)
Definition told (op : operation) (r : result unit str) : result unit str := match r with Ok a => Ok a | Err e => Err (error_prefix op ++ e) end.
Lemma operation_spec env m out hs op : exists ev r, file_operation env m hs out op = Ret (ev, told op r) /\
  file_outcome env m out op (outs ev) (log_lines ev) r /\ warns ev = [] /\ (ce_log env = false -> log_lines ev = []).
Proof. exact (file_operation_spec env m out hs op). Qed.
Section Run.
Variables (fails : world) (m : machine) (file : option str).
Definition created : bool := match file with Some p => match m_create m p with Ok _ => true | Err _ => false end | None => false end.
Definition pre : list write := map (fun l => (ToStderr, l ++ [10%N])) (notices m file).

Lemma pre_stderr ns : arrived (map (fun l => (ToStderr, l ++ [10%N])) ns) ToStderr = with_lf ns.
Proof. induction ns as [| l ns IH]; auto. exact (f_equal (app (l ++ [10%N])) IH). Qed.
Lemma pre_other ns st : st <> ToStderr -> arrived (map (fun l => (ToStderr, l ++ [10%N])) ns) st = [].
Proof. intros N. induction ns as [| l ns IH]; auto. cbn. destruct st; [ exact IH | contradiction | exact IH ]. Qed.
Lemma in_file_maybe u : maybe (in_file m file u) = if created then u else [].
Proof. unfold created, in_file. destruct file as [p |]; auto. destruct (m_create m p); auto. Qed.
Lemma created_notices : created = true -> notices m file = [].
Proof. unfold created, notices. destruct file as [p |]; auto. destruct (m_create m p); auto. discriminate. Qed.
Lemma notices_not_created l ns : notices m file = l :: ns -> created = false.
Proof. intros E. destruct created eqn:C; auto. rewrite created_notices in E by auto. discriminate. Qed.
Lemma lf_not_nil (l : str) : l ++ [10%N] <> [].
Proof. destruct l; discriminate. Qed.
Hint Resolve lf_not_nil : core.

Lemma ask_body ev st s : warns ev = [] -> ask fails (pre ++ flat_map (event_writes created) ev) st s =
  fails (with_lf (texts (marked ev))) (with_lf (notices m file)) (maybe (in_file m file (concat (results (marked ev))))) st s.
Proof.
  intros W. unfold ask. rewrite !arrived_app. unfold pre. rewrite pre_stderr, !pre_other, arrived_stdout, arrived_stderr, arrived_file, in_file_maybe, app_nil_r by (auto; discriminate). auto.
Qed.
Lemma ask_stored ev l st s : warns ev = [] -> created = true ->
  ask fails (pre ++ flat_map (event_writes created) ev ++ [(ToStdout, l ++ [10%N])]) st s =
  fails (with_lf (texts (marked ev) ++ [l])) [] (concat (results (marked ev))) st s.
Proof.
  intros W C. unfold ask. rewrite !arrived_app. unfold pre. rewrite pre_stderr, !pre_other, arrived_stdout, arrived_stderr, arrived_file, C by (auto; discriminate).
  rewrite created_notices by auto. cbn. rewrite with_lf_app, !app_nil_r. cbn. rewrite ?app_nil_r. auto.
Qed.

(** If the writes up to a point succeed, the notices and the lines were written. *)
Lemma fine_notices rest : (forall before st s after, pre ++ rest = before ++ (st, s) :: after -> s <> [] -> ask fails before st s = None) ->
  notices_fine fails (notices m file).
Proof.
  intros H before l after E. unfold pre in H. rewrite E, map_app in H. cbn [map] in H. rewrite <- app_assoc in H. cbn [app] in H.
  specialize (H _ _ _ _ eq_refl (lf_not_nil l)). unfold ask in H. rewrite pre_stderr, !pre_other in H by discriminate. exact H.
Qed.
Lemma fine_lines ev rest : warns ev = [] ->
  (forall before st s after, pre ++ flat_map (event_writes created) ev ++ rest = before ++ (st, s) :: after -> s <> [] -> ask fails before st s = None) ->
  lines_fine fails m file (marked ev).
Proof.
  intros W H before b l after E. destruct (marked_split ev W _ _ _ _ E) as (ev1 & e & ev2 & -> & <- & Ee).
  rewrite warns_app in W. apply app_eq_nil in W as [W1 W2]. rewrite flat_map_app in H. cbn [flat_map] in H.
  assert (X : event_writes created e = (ToStdout, l ++ [10%N]) :: (if b && created then [(ToFile, l)] else [])).
  { subst e. destruct b; auto. }
  rewrite X in H. split.
  - unfold print_write. rewrite <- ask_body by auto.
    refine (H (pre ++ flat_map (event_writes created) ev1) ToStdout (l ++ [10%N]) _ _ (lf_not_nil l)). rewrite <- !app_assoc. cbn [app]. reflexivity.
  - intros p u -> Ef C Nl. assert (Cr : created = true) by (unfold created; rewrite Ef, C; auto). rewrite Cr in H. cbn [andb] in H.
    unfold file_write. rewrite <- ask_stored by auto.
    refine (H (pre ++ flat_map (event_writes created) ev1 ++ [(ToStdout, l ++ [10%N])]) ToFile l _ _ Nl). rewrite Cr, <- !app_assoc. cbn [app]. reflexivity.
Qed.

Definition post (op : operation) (r : result unit str) : list write := map (fun l => (ToStderr, l ++ [10%N])) (complaint op r).
Definition create : option (result unit str) := match file with None => None | Some p => Some (m_create m p) end.

Lemma writes_shape op ev r :
  run_writes create ev (told op r) = pre ++ flat_map (event_writes created) ev ++ post op r.
Proof.
  unfold told, run_writes, pre, post, create, notices, created, complaint, println.
  destruct file as [p |]; [ destruct (m_create m p) |]; destruct r; reflexivity.
Qed.
Lemma ends_run op ev r ws status : warns ev = [] -> perform fails [] (pre ++ flat_map (event_writes created) ev ++ post op r) = (ws, status) ->
  ends fails m file op (marked ev) r
    (mk_run_end (arrived ws ToStdout) (arrived ws ToStderr) (match create with Some (Ok _) => Some (arrived ws ToFile) | _ => None end) status).
Proof.
  intros W P.
  destruct (perform_cases fails (pre ++ flat_map (event_writes created) ev ++ post op r) []) as [[E H] | (before & st & s & after & n & T & Ns & F & E & H)];
    rewrite E in P; injection P as <- <-; cbn [app] in *.
  - (* everything *)
    replace (arrived (pre ++ flat_map (event_writes created) ev ++ post op r) ToStdout) with (with_lf (texts (marked ev))).
    2: { rewrite !arrived_app. unfold pre, post. rewrite !pre_other, arrived_stdout, app_nil_r by discriminate. auto. }
    replace (arrived (pre ++ flat_map (event_writes created) ev ++ post op r) ToStderr) with (with_lf (notices m file ++ complaint op r)).
    2: { rewrite !arrived_app. unfold pre, post. rewrite !pre_stderr, arrived_stderr, with_lf_app by auto. auto. }
    match goal with |- ends _ _ _ _ _ _ (mk_run_end _ _ ?c _) => replace c with (in_file m file (concat (results (marked ev)))) end.
    2: { rewrite !arrived_app. unfold pre, post. rewrite !pre_other, arrived_file, app_nil_r by discriminate.
         unfold create, in_file, created. destruct file as [p |]; auto. destruct (m_create m p); auto. }
    apply ends_well.
    + eapply fine_notices. exact H.
    + eapply fine_lines; eauto.
    + intros l El. unfold error_write. rewrite <- ask_body by auto.
      refine (H (pre ++ flat_map (event_writes created) ev) ToStderr (l ++ [10%N]) [] _ (lf_not_nil l)).
      unfold post. rewrite El, <- app_assoc. auto.
  - (* the first failing write *)
    destruct (split_at pre (flat_map (event_writes created) ev ++ post op r) before (st, s) after T) as [(x & E1 & E2) | (before' & -> & T')].
    + (* a notice *)
      unfold pre in E1. apply map_eq_app in E1 as (b1 & a1 & En & Eb & Ea). apply map_eq_cons in Ea as (l & a2 & -> & El & _). injection El as <- <-. subst before.
      pose proof (notices_not_created) as NC. assert (C : created = false) by (destruct b1; eapply NC; exact En).
      rewrite !arrived_app, pre_stderr, !pre_other by discriminate. cbn. rewrite app_nil_r.
      match goal with |- ends _ _ _ _ _ _ (mk_run_end _ _ ?c _) => replace c with (@None str) end.
      2: { unfold created, create in *. destruct file as [p |]; auto. destruct (m_create m p); auto. discriminate. }
      apply (ends_notice fails m file op (marked ev) r b1 l a2 n En).
      * intros b l' a E'. subst b1. rewrite map_app in H. specialize (H _ _ _ _ eq_refl (lf_not_nil l')). unfold ask in H.
        rewrite pre_stderr, !pre_other in H by discriminate. exact H.
      * unfold ask in F. rewrite pre_stderr, !pre_other in F by discriminate. exact F.
    + assert (HN : notices_fine fails (notices m file)).
      { apply (fine_notices before'). intros b st' s' a E' N. exact (H b st' s' a E' N). }
      destruct (split_at _ _ _ _ _ T') as [(x & E1 & E2) | (before2 & -> & T2)].
      * (* an event *)
        destruct (split_events created ev W _ _ _ _ E1) as (ev1 & e & ev2 & -> & b & l & Me & [(-> & -> & ->) | (C & -> & -> & -> & ->)]).
        -- rewrite warns_app in W. apply app_eq_nil in W as [W1 W2].
           assert (L1 : lines_fine fails m file (marked ev1)) by (apply (fine_lines ev1 [] W1); rewrite app_nil_r; exact H).
           rewrite !arrived_app. unfold pre. rewrite pre_stderr, !pre_other, arrived_stdout, arrived_stderr, arrived_file by (auto; discriminate).
           cbn [arrived flat_map fst snd stream_eqb app]. rewrite !app_nil_r.
           match goal with |- ends _ _ _ _ _ _ (mk_run_end _ _ ?c _) => replace c with (in_file m file (concat (results (marked ev1)))) end.
           2: { unfold create, in_file, created. destruct file as [p |]; auto. destruct (m_create m p); auto. }
           change (ev1 ++ e :: ev2) with (ev1 ++ [e] ++ ev2). rewrite !marked_app, Me.
           refine (ends_print fails m file op _ r (marked ev1) b l (marked ev2) n HN eq_refl L1 _).
           unfold print_write. rewrite <- ask_body by auto. exact F.
        -- rewrite warns_app in W. apply app_eq_nil in W as [W1 W2].
           assert (L1 : lines_fine fails m file (marked ev1)) by (eapply (fine_lines ev1 _ W1); exact H).
           assert (FC : exists p u, file = Some p /\ m_create m p = Ok u).
           { unfold created in C. destruct file as [p |]; [| discriminate ]. destruct (m_create m p) eqn:Em; [ eauto | discriminate ]. }
           destruct FC as (p & u & Ef & Em). rewrite ask_stored in F by auto.
           rewrite !arrived_app. unfold pre. rewrite pre_stderr, !pre_other, arrived_stdout, arrived_stderr, arrived_file, C, created_notices by (auto; discriminate).
           cbn [arrived flat_map fst snd stream_eqb app]. rewrite !app_nil_r.
           unfold create. rewrite Ef, Em. change (ev1 ++ e :: ev2) with (ev1 ++ [e] ++ ev2). rewrite !marked_app, Me.
           replace (with_lf (texts (marked ev1)) ++ l ++ [10%N]) with (with_lf (texts (marked ev1) ++ [l])).
           2: { rewrite with_lf_app. cbn. rewrite ?app_nil_r. auto. }
           rewrite <- Ef.
           refine (ends_file fails m file op _ r (marked ev1) l (marked ev2) n p u eq_refl Ef Em Ns L1 _ F).
           unfold print_write. rewrite <- ask_body by auto.
           refine (H (pre ++ flat_map (event_writes created) ev1) ToStdout (l ++ [10%N]) [] _ (lf_not_nil l)). rewrite <- app_assoc. auto.
      * (* the error *)
        assert (LF : lines_fine fails m file (marked ev)) by (apply (fine_lines ev before2 W); exact H).
        unfold post in T2. destruct (complaint op r) as [| l [|]] eqn:Ec; [ destruct before2; discriminate T2 | | destruct r; discriminate Ec ].
        cbn [map] in T2. destruct before2 as [| x before2]; [| destruct before2; discriminate T2 ]. cbn [app] in T2. injection T2 as <- <- _.
        rewrite app_nil_r in *. rewrite ask_body in F by auto.
        rewrite !arrived_app. unfold pre. rewrite pre_stderr, !pre_other, arrived_stdout, arrived_stderr, arrived_file by (auto; discriminate).
        cbn [arrived flat_map fst snd stream_eqb app]. rewrite !app_nil_r.
        match goal with |- ends _ _ _ _ _ _ (mk_run_end _ _ ?c _) => replace c with (in_file m file (concat (results (marked ev)))) end.
        2: { unfold create, in_file, created. destruct file as [p |]; auto. destruct (m_create m p); auto. }
        exact (ends_error fails m file op (marked ev) r l n HN LF Ec F).
Qed.
End Run.

(** ** The theorems *)
Lemma reading_only_written m file w same create' : same = m_same m -> create' = m_create m ->
  only_written m (mk_machine (reading m file w) same create') file
    (match match file with None => None | Some p => Some (m_create m p) end with Some (Ok _) => Some w | _ => None end).
Proof.
  intros -> ->. unfold only_written, reading. cbn. split; auto. split; auto. split.
  - intros p u -> C. rewrite C. eexists. split; [ reflexivity |]. intros q ->. reflexivity.
  - intros q Hq. destruct file as [p |]; auto. destruct (m_create m p) as [u |] eqn:C; auto. rewrite (Hq p u eq_refl C). reflexivity.
Qed.

Theorem every_run env m hs file op : exists ls r,
  file_outcome env m file op (results ls) (logged ls) r /\ (ce_log env = false -> logged ls = []) /\
  forall fails, exists e m', write_main fails env m hs file op = Ret (e, m') /\ ends fails m file op ls r e /\ only_written m m' file (re_file e).
Proof.
  destruct (operation_spec env m file hs op) as (ev & r & E & H & W & Q). exists (marked ev), r. rewrite marked_results, marked_logged.
  split; auto. split; auto. intros fails. unfold write_main. rewrite E. cbn [bind].
  pose proof (writes_shape m file op ev r) as S. unfold create in S.  rewrite S.
  destruct (perform fails [] (pre m file ++ flat_map (event_writes (created m file)) ev ++ post op r)) as [ws status] eqn:P.
  do 2 eexists. split; [ reflexivity |]. split; [ exact (ends_run fails m file op ev r ws status W P) |].
  cbn [re_file]. apply reading_only_written; auto.
Qed.

(** What the run brings to a stream when nothing fails *)
Lemma should env m hs file op : exists ev r,
  file_operation env m hs file op = Ret (ev, told op r) /\ warns ev = [] /\
  let all := pre m file ++ flat_map (event_writes (created m file)) ev ++ post op r in
  let c := create m file in
  run_writes c ev (told op r) = all /\
  exists res m', file_main env m hs file op = Ret (res, m') /\ mr_stdout res = arrived all ToStdout /\ mr_stderr res = arrived all ToStderr /\
    mr_file res = (match c with Some (Ok _) => Some (arrived all ToFile) | _ => None end) /\
    m' = mk_machine (reading m file (arrived all ToFile)) (m_same m) (m_create m) /\ (created m file = false -> arrived all ToFile = []).
Proof.
  destruct (operation_spec env m file hs op) as (ev & r & E & H & W & Q). exists ev, r. split; auto. split; auto. cbv zeta.
  split; [ apply writes_shape |]. unfold file_main. rewrite E. cbn [bind]. do 2 eexists. split; [ reflexivity |].
  unfold finish. cbn [mr_stdout mr_stderr mr_file]. rewrite !arrived_app. unfold pre, post.
  rewrite !pre_stderr, !pre_other, arrived_stdout, arrived_stderr, arrived_file, !app_nil_r, stderr_nil, sink_outs, marked_results by (auto; discriminate).
  split; [| split; [| split; [| split ]]].
  - clear - W. unfold with_lf. induction ev as [| [s | s | s] ev IH]; try discriminate W; auto; exact (f_equal (app (println s)) (IH W)).
  - unfold told, notices, complaint, with_lf, println. destruct file as [p |]; [ destruct (m_create m p) |]; destruct r as [[] | er]; cbn; rewrite ?app_nil_r, <- ?app_assoc; auto.
  - unfold create, created. destruct file as [p |]; auto. destruct (m_create m p); auto.
  - f_equal. unfold reading, created. cbn [app]. destruct file as [p |]; auto. destruct (m_create m p); auto.
  - intros ->. auto.
Qed.

Theorem healthy_run env m hs file op : exists res m', file_main env m hs file op = Ret (res, m') /\
  write_main healthy env m hs file op = Ret (mk_run_end (mr_stdout res) (mr_stderr res) (mr_file res) 0, m').
Proof.
  destruct (should env m hs file op) as (ev & r & E & W & S & res & m' & M & E1 & E2 & E3 & E4 & _). exists res, m'. split; auto.
  unfold write_main. rewrite E. cbn [bind]. unfold create in *. rewrite S, E1, E2, E3, E4.
  destruct (perform_cases healthy (pre m file ++ flat_map (event_writes (created m file)) ev ++ post op r) []) as [[-> _] | (? & ? & ? & ? & ? & _ & _ & C & _)]; [| discriminate C ].
  reflexivity.
Qed.

Theorem prefix_run fails env m hs file op : exists res m' e m'', file_main env m hs file op = Ret (res, m') /\
  write_main fails env m hs file op = Ret (e, m'') /\
  (forall st, prefix_of (brought e st) (should_bring res st)) /\ (re_file e = None <-> mr_file res = None) /\
  ((re_status e = 0%N /\ e = mk_run_end (mr_stdout res) (mr_stderr res) (mr_file res) 0 /\ m'' = m') \/ re_status e = 101%N).
Proof.
  destruct (should env m hs file op) as (ev & r & E & W & S & res & m' & M & E1 & E2 & E3 & E4 & E5). exists res, m'.
  unfold write_main. rewrite E. cbn [bind]. unfold create in *. rewrite S.
  set (all := pre m file ++ flat_map (event_writes (created m file)) ev ++ post op r) in *.
  destruct (perform fails [] all) as [ws status] eqn:P. do 2 eexists. split; auto. split; [ reflexivity |].
  assert (X : (ws = all /\ status = 0%N) \/ (status = 101%N /\ forall st, prefix_of (arrived ws st) (arrived all st))).
  { destruct (perform_cases fails all []) as [[K _] | (b & st & s & a & n & T & _ & _ & K & _)]; rewrite K in P; injection P as <- <-; [ left; auto | right ].
    split; auto. intros st'. rewrite T. cbn [app]. rewrite !arrived_app. unfold prefix_of. cbn [arrived flat_map fst snd]. rewrite app_nil_r.
    destruct (stream_eqb st st').
    - exists (skipn n s ++ arrived a st'). rewrite <- !app_assoc. f_equal. rewrite <- (firstn_skipn n s) at 1. rewrite <- app_assoc. auto.
    - exists (arrived a st'). rewrite app_nil_r. auto. }
  split; [| split ].
  - intros st. assert (Y : prefix_of (arrived ws st) (arrived all st)).
    { destruct X as [[-> _] | [_ X]]; auto. exists []. rewrite app_nil_r. auto. }
    destruct st; cbn [brought should_bring re_stdout re_stderr re_file]; rewrite ?E1, ?E2, ?E3; auto.
    destruct file as [p |]; [ destruct (m_create m p) |]; cbn [maybe]; auto; exists []; auto.
  - cbn [re_file]. rewrite E3. destruct file as [p |]; [ destruct (m_create m p) |]; split; congruence.
  - cbn [re_status]. destruct X as [[-> ->] | [-> _]]; auto. left. rewrite E1, E2, E3, E4. auto.
Qed.

(** A stream with room for [k] characters *)
Lemma perform_room st k todo : forall done ws status, length (arrived done st) <= k -> perform (room st k) done todo = (ws, status) ->
  arrived ws st = firstn k (arrived (done ++ todo) st) /\ status = (if length (arrived (done ++ todo) st) <=? k then 0%N else 101%N).
Proof.
  induction todo as [| [st' s] todo IH]; intros done ws status L P; cbn [perform] in P.
  - injection P as <- <-. rewrite app_nil_r, firstn_all2 by auto. apply Nat.leb_le in L. rewrite L. auto.
  - assert (K : forall t, length (arrived (done ++ [(st', s)]) st) <= k -> perform (room st k) (done ++ [(st', s)]) todo = (ws, t) ->
              t = status -> arrived ws st = firstn k (arrived (done ++ (st', s) :: todo) st) /\
              status = (if length (arrived (done ++ (st', s) :: todo) st) <=? k then 0%N else 101%N)).
    { intros t L' P' ->. change (done ++ (st', s) :: todo) with (done ++ [(st', s)] ++ todo). rewrite app_assoc. apply (IH _ _ _ L' P'). }
    assert (A : arrived (done ++ [(st', s)]) st = arrived done st ++ (if stream_eqb st' st then s else [])).
    { rewrite arrived_app. cbn [arrived flat_map fst snd]. rewrite app_nil_r. auto. }
    destruct s as [| c s].
    { apply (K status); auto. rewrite A. destruct (stream_eqb st' st); rewrite app_nil_r; auto. }
    remember (c :: s) as s0. clear Heqs0 c s.
    assert (B : ask (room st k) done st' s0 = if stream_eqb st st' then if length (arrived done st) + length s0 <=? k then None else Some (k - length (arrived done st)) else None).
    { unfold ask, room. destruct st; auto. }
    assert (Sy : stream_eqb st' st = stream_eqb st st') by (destruct st, st'; auto).
    rewrite B in P. rewrite Sy in A. destruct (stream_eqb st st') eqn:Es.
    + destruct (length (arrived done st) + length s0 <=? k) eqn:Le.
      * apply Nat.leb_le in Le. apply (K status); auto. rewrite A, app_length. auto.
      * apply Nat.leb_gt in Le. injection P as <- <-. rewrite !arrived_app. cbn [arrived flat_map fst snd]. rewrite Sy, app_nil_r.
        rewrite firstn_app, (firstn_all2 (arrived done st)) by auto. rewrite firstn_app. replace (k - length (arrived done st) - length s0) with 0 by lia.
        rewrite firstn_O, app_nil_r. split; auto. rewrite !app_length. match goal with |- _ = (if ?b then _ else _) => destruct b eqn:X end; auto.
        apply Nat.leb_le in X. lia.
    + apply (K status); auto. rewrite A, app_nil_r. auto.
Qed.
Theorem room_run st k env m hs file op : exists res m' e m'', file_main env m hs file op = Ret (res, m') /\
  write_main (room st k) env m hs file op = Ret (e, m'') /\
  brought e st = firstn k (should_bring res st) /\ re_status e = (if length (should_bring res st) <=? k then 0%N else 101%N).
Proof.
  destruct (should env m hs file op) as (ev & r & E & W & S & res & m' & M & E1 & E2 & E3 & E4 & E5). exists res, m'.
  unfold write_main. rewrite E. cbn [bind]. unfold create in *. rewrite S.
  set (all := pre m file ++ flat_map (event_writes (created m file)) ev ++ post op r) in *.
  destruct (perform (room st k) [] all) as [ws status] eqn:P. do 2 eexists. split; auto. split; [ reflexivity |].
  destruct (perform_room st k all [] ws status) as [H1 H2]; [ cbn; lia | exact P |]. cbn [app] in H1, H2. subst status.
  destruct st; cbn [brought should_bring re_stdout re_stderr re_file re_status]; rewrite ?E1, ?E2, ?E3; auto.
  unfold created in E5. destruct file as [p |]; [ destruct (m_create m p) |]; cbn [maybe]; auto; rewrite firstn_nil; split; auto; rewrite E5; auto.
Qed.

(** ** There is only one end *)
Lemma two_splits {A} (b1 b2 : list A) x y a1 a2 : b1 ++ x :: a1 = b2 ++ y :: a2 ->
  (b1 = b2 /\ x = y) \/ (exists c, b1 = b2 ++ y :: c) \/ (exists c, b2 = b1 ++ x :: c).
Proof.
  intros E. destruct (split_at _ _ _ _ _ E) as [(c & -> & _) | (c & -> & E')]; eauto.
  destruct c as [| z c]; cbn [app] in E'; injection E' as <- _; [ left; rewrite app_nil_r; auto | right; right; eauto ].
Qed.
Theorem one_end fails m file op ls r e1 e2 : ends fails m file op ls r e1 -> ends fails m file op ls r e2 -> e1 = e2.
Proof.
  assert (NN : forall b l a n, notices m file = b ++ l :: a -> notice_write fails b l = Some n -> notices_fine fails (notices m file) -> False).
  { intros b l a n E W F. specialize (F _ _ _ E). congruence. }
  assert (NP : forall ls' b k l a n, ls' = b ++ (k, l) :: a -> print_write fails m file b l = Some n -> lines_fine fails m file ls' -> False).
  { intros ls' b k l a n E W F. destruct (F _ _ _ _ E). congruence. }
  assert (NF : forall ls' b l a n p u, ls' = b ++ (true, l) :: a -> file = Some p -> m_create m p = Ok u -> l <> [] -> file_write fails b l = Some n -> lines_fine fails m file ls' -> False).
  { intros ls' b l a n p u E E1 E2 N W F. destruct (F _ _ _ _ E) as [_ F']. rewrite (F' p u) in W; auto. discriminate. }
  assert (CN : forall p u b l a, file = Some p -> m_create m p = Ok u -> notices m file = b ++ l :: a -> False).
  { intros p u b l a E1 E2 E. unfold notices in E. rewrite E1, E2 in E. destruct b; discriminate. }
  intros H1 H2. destruct H1 as [N1 L1 C1 | b1 l1 a1 n1 E1 F1 W1 | b1 k1 l1 a1 n1 N1 E1 F1 W1 | b1 l1 a1 n1 p1 u1 E1 Ef1 Em1 Nl1 F1 P1 W1 | l1 n1 N1 L1 E1 W1];
    destruct H2 as [N2 L2 C2 | b2 l2 a2 n2 E2 F2 W2 | b2 k2 l2 a2 n2 N2 E2 F2 W2 | b2 l2 a2 n2 p2 u2 E2 Ef2 Em2 Nl2 F2 P2 W2 | l2 n2 N2 L2 E2 W2];
    auto; try solve [ exfalso; eauto ].
  all: try solve [ exfalso; rewrite C1 in W2 by auto; discriminate | exfalso; rewrite C2 in W1 by auto; discriminate ].
  - rewrite E1 in E2. destruct (two_splits _ _ _ _ _ _ E2) as [[-> ->] | [(c & ->) | (c & ->)]].
    + congruence.
    + exfalso. rewrite (F1 _ _ _ eq_refl) in W2. discriminate.
    + exfalso. rewrite (F2 _ _ _ eq_refl) in W1. discriminate.
  - rewrite E1 in E2. destruct (two_splits _ _ _ _ _ _ E2) as [[-> [= -> ->]] | [(c & ->) | (c & ->)]]; [ congruence | exfalso; eauto .. ].
  - rewrite E1 in E2. destruct (two_splits _ _ _ _ _ _ E2) as [[-> [= -> ->]] | [(c & ->) | (c & ->)]]; [ congruence | exfalso; eauto .. ].
  - rewrite E1 in E2. destruct (two_splits _ _ _ _ _ _ E2) as [[-> [= <- ->]] | [(c & ->) | (c & ->)]]; [ congruence | exfalso; eauto .. ].
  - rewrite E1 in E2. destruct (two_splits _ _ _ _ _ _ E2) as [[-> [= ->]] | [(c & ->) | (c & ->)]]; [ congruence | exfalso; eauto .. ].
  - rewrite E1 in E2. injection E2 as ->. congruence.
Qed.
