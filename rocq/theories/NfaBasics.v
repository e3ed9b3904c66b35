(** * Basic facts about NFAs: runs, closures, evaluators *)
From Coq Require Import List NArith Arith Bool Lia Permutation.
From Verif Require Import Base BaseLemmas Spec Search DfaModel DfaBasics NfaModel Bfs Histories.
Import ListNotations.

(** ** Runs *)
Lemma nfa_edge_elem n p a q : nfa_edge n p a q -> In a (nfa_alphabet n).
Proof. intros (i & s & ts & Hi & _). eapply nth_error_In; eauto. Qed.
Lemma nfa_edge_src n p a q : nfa_edge n p a q -> p < length (nfa_states n).
Proof. intros (i & s & ts & _ & Hs & _). eapply nth_error_length; eauto. Qed.
Lemma nfa_edge_dst n p a q : nfa_valid n -> nfa_edge n p a q -> q < length (nfa_states n).
Proof. intros V (i & s & ts & _ & Hs & Hts & Hq). eapply (nv_range _ V); eauto. eapply nth_error_In; eauto. Qed.
Lemma nfa_eps_dst n p q : nfa_valid n -> nfa_eps_edge n p q -> q < length (nfa_states n).
Proof. intros V (s & Hs & Hq). eapply (nv_eps_range _ V); eauto. Qed.

Lemma nfa_path_app n p u q v r : nfa_path n p u q -> nfa_path n q v r -> nfa_path n p (u ++ v) r.
Proof.
  induction 1 as [|p q u r' He Hp IH|p a q u r' He Hp IH]; simpl; intros H2; auto.
  - eapply nfa_path_eps; eauto.
  - eapply nfa_path_cons; eauto.
Qed.

Lemma nfa_path_app_inv n p u v r : nfa_path n p (u ++ v) r -> exists q, nfa_path n p u q /\ nfa_path n q v r.
Proof.
  intros H. remember (u ++ v) as w eqn:E. revert u v E.
  induction H as [p|p q w r He Hp IH|p a q w r He Hp IH]; intros u v E.
  - symmetry in E. apply app_eq_nil in E as [-> ->]. exists p. split; constructor.
  - destruct (IH u v E) as (t & H1 & H2). exists t. split; auto. eapply nfa_path_eps; eauto.
  - destruct u as [|b u]; simpl in E.
    + subst v. exists p. split; [constructor|]. eapply nfa_path_cons; eauto.
    + injection E as <- E. destruct (IH u v E) as (t & H1 & H2). exists t. split; auto. eapply nfa_path_cons; eauto.
Qed.

Lemma nfa_path_one n p a r : nfa_path n p [a] r <-> exists t t', nfa_path n p [] t /\ nfa_edge n t a t' /\ nfa_path n t' [] r.
Proof.
  split.
  - intros H. remember [a] as w eqn:E. induction H as [p|p q w r He Hp IH|p b q w r He Hp IH].
    + discriminate.
    + destruct (IH E) as (t & t' & H1 & H2 & H3). exists t, t'. split; auto. eapply nfa_path_eps; eauto.
    + injection E as -> ->. exists p, q. split; [constructor|]. auto.
  - intros (t & t' & H1 & H2 & H3). apply (nfa_path_app n p [] t [a] r H1). eapply nfa_path_cons; eauto.
Qed.

Lemma nfa_path_snoc n p u a r :
  nfa_path n p (u ++ [a]) r <-> exists t t', nfa_path n p u t /\ nfa_edge n t a t' /\ nfa_path n t' [] r.
Proof.
  split.
  - intros H. apply nfa_path_app_inv in H as (q & H1 & H2). apply nfa_path_one in H2 as (t & t' & H2 & H3 & H4).
    exists t, t'. split; auto. rewrite <- (app_nil_r u). eapply nfa_path_app; eauto.
  - intros (t & t' & H1 & H2 & H3). eapply nfa_path_app; eauto. eapply nfa_path_cons; eauto.
Qed.

Lemma nfa_path_cons_inv n p a w r :
  nfa_path n p (a :: w) r <-> exists t t', nfa_path n p [] t /\ nfa_edge n t a t' /\ nfa_path n t' w r.
Proof.
  split.
  - intros H. change (a :: w) with ([a] ++ w) in H. apply nfa_path_app_inv in H as (q & H1 & H2).
    apply nfa_path_one in H1 as (t & t' & H3 & H4 & H5). exists t, t'. split; auto. split; auto.
    apply (nfa_path_app n t' [] q w r); auto.
  - intros (t & t' & H1 & H2 & H3). apply (nfa_path_app n p [] t (a :: w) r); auto. eapply nfa_path_cons; eauto.
Qed.

Lemma nfa_path_over n p w q : nfa_path n p w q -> over (nfa_alphabet n) w.
Proof. induction 1; auto; constructor; auto. eapply nfa_edge_elem; eauto. Qed.

Lemma nfa_lang_over n w : nfa_lang n w -> over (nfa_alphabet n) w.
Proof. intros (q & H & _). eapply nfa_path_over; eauto. Qed.

Lemma nfa_path_range n p w q : nfa_valid n -> p < length (nfa_states n) -> nfa_path n p w q -> q < length (nfa_states n).
Proof.
  intros V Hp H. induction H as [|p q w r He H IH|p a q w r He H IH]; auto.
  - apply IH. eapply nfa_eps_dst; eauto.
  - apply IH. eapply nfa_edge_dst; eauto.
Qed.

Lemma nfa_path_star n p q : nfa_path n p [] q <-> star (nfa_eps_edge n) p q.
Proof.
  split.
  - intros H. remember [] as w eqn:E. induction H; [constructor|eapply star_head; eauto|discriminate].
  - induction 1 as [|y z Hy IH Hyz]; [constructor|]. apply (nfa_path_app n p [] y [] z IH).
    eapply nfa_path_eps; eauto. constructor.
Qed.

Lemma nfa_accepting_dec n p : {nfa_accepting n p} + {~ nfa_accepting n p}.
Proof.
  destruct (nth_error (nfa_states n) p) as [s|] eqn:E.
  - destruct (ns_accepting s) eqn:Ea; [left; exists s; auto|right]. intros (s' & Hs & Ha). congruence.
  - right. intros (s' & Hs & Ha). congruence.
Qed.

(** ** [Nfa::closure] *)
Lemma closure_round_fold n all acc qs ess :
  mapR (fun q => s <- index (nfa_states n) q ;; Ret (ns_eps s)) qs = Ret ess ->
  foldR (fun '(all, new) state =>
           s <- index (nfa_states n) state ;;
           Ret (fold_left (fun '(all, new) t =>
                             let '(all', ins) := hs_insert t all in (all', if ins then new ++ [t] else new))
                          (ns_eps s) (all, new))) (all, acc) qs =
  Ret (fold_left (fun '(all, new) t => let '(all', ins) := hs_insert t all in (all', if ins then new ++ [t] else new))
                 (concat ess) (all, acc)).
Proof.
  revert all acc ess; induction qs as [|q qs IH]; intros all acc ess Hm; simpl in *.
  - injection Hm as <-. reflexivity.
  - destruct (index (nfa_states n) q) as [s| |] eqn:Es; simpl in *; try discriminate.
    destruct (mapR _ qs) as [es| |] eqn:Em; simpl in *; try discriminate. injection Hm as <-. simpl.
    rewrite fold_left_app. destruct (fold_left _ (ns_eps s) (all, acc)) as [all' acc'] eqn:Ef.
    rewrite (IH all' acc' es eq_refl). reflexivity.
Qed.

Lemma mapR_eps n qs : Forall (fun q => q < length (nfa_states n)) qs ->
  exists ess, mapR (fun q => s <- index (nfa_states n) q ;; Ret (ns_eps s)) qs = Ret ess /\
              forall x, In x (concat ess) <-> exists q, In q qs /\ nfa_eps_edge n q x.
Proof.
  intros Hr. rewrite Forall_forall in Hr.
  destruct (mapR_total (fun q => s <- index (nfa_states n) q ;; Ret (ns_eps s))
             (fun q es => exists s, nth_error (nfa_states n) q = Some s /\ es = ns_eps s) qs) as (ess & He & HF).
  { intros q Hq. destruct (nth_error_lt _ _ (Hr q Hq)) as [s Hs]. rewrite (index_Some _ _ _ Hs). simpl. eauto. }
  exists ess. split; auto. intros x. rewrite in_concat_iff. split.
  - intros (l & Hl & Hx). destruct (Forall2_In_r _ _ _ _ HF Hl) as (q & Hq & s & Hs & ->). exists q. split; auto. exists s; auto.
  - intros (q & Hq & s & Hs & Hx). destruct (Forall2_In_l _ _ _ _ HF Hq) as (l & Hl & s' & Hs' & ->).
    exists (ns_eps s'). split; auto. congruence.
Qed.

Lemma nfa_closure_correct n q : nfa_valid n ->
  exists r, nfa_closure n q = Ret r /\
    match r with
    | None => length (nfa_states n) <= q
    | Some cl => q < length (nfa_states n) /\ NoDup cl /\ forall x, In x cl <-> nfa_path n q [] x
    end.
Proof.
  intros V. unfold nfa_closure. destruct (Nat.leb_spec (length (nfa_states n)) q) as [Hq|Hq].
  - exists None. auto.
  - destruct (bfs_total (nfa_closure_step n) fst snd (nfa_eps_edge n) (length (nfa_states n)) q ([q], [q])
                        (S (length (nfa_states n)))) as (r & Hr & Hnd & Hin); try reflexivity.
    + intros [all new]; simpl. intros ->. reflexivity.
    + intros [all new]; simpl. intros Hne Hnd Hrange.
      destruct (mapR_eps n new Hrange) as (ess & He & Hx).
      destruct (fold_insert_new (concat ess) all [] Hnd) as (nw & Hf & Hnd' & Hx').
      destruct new as [|q0 qs]; [congruence|]. unfold nfa_closure_round. rewrite (closure_round_fold n all [] _ ess He), Hf.
      simpl. eexists (all ++ nw, nw), nw. split; [reflexivity|]. simpl. split; auto. split; auto. split; auto.
      intros x. rewrite Hx', Hx. reflexivity.
    + intros p x Hp He. eapply nfa_eps_dst; eauto.
    + auto.
    + pose proof (pow2_gt (S (length (nfa_states n)))). lia.
    + rewrite Hr. simpl. exists (Some r). split; auto. split; auto. split; auto. intros x. rewrite Hin. symmetry. apply nfa_path_star.
Qed.

Lemma nfa_closure_in n q : nfa_valid n -> q < length (nfa_states n) ->
  exists cl, nfa_closure n q = Ret (Some cl) /\ NoDup cl /\ forall x, In x cl <-> nfa_path n q [] x.
Proof.
  intros V Hq. destruct (nfa_closure_correct n q V) as ([cl|] & Hr & Hc); [|lia]. exists cl. tauto.
Qed.

(** ** [include_closure] *)
Lemma filter_negb_mem_In {A} `{Eqb A} (l cur : list A) x : In x (filter (fun t => negb (mem t cur)) l) <-> In x l /\ ~ In x cur.
Proof. rewrite filter_In, negb_true_iff, mem_nIn. tauto. Qed.

Lemma ne_include_closure_correct n cur : nfa_valid n -> NoDup cur -> Forall (fun q => q < length (nfa_states n)) cur ->
  exists r, ne_include_closure n cur = Ret r /\ NoDup r /\
            forall x, In x r <-> exists q, In q cur /\ nfa_path n q [] x.
Proof.
  intros V Hnd Hrange. unfold ne_include_closure.
  pose (Inv := fun s => NoDup s /\ Forall (fun q => q < length (nfa_states n)) s /\ incl cur s /\
                        forall x, In x s -> exists q, In q cur /\ nfa_path n q [] x).
  destruct (while_total Inv (fun r => NoDup r /\ forall x, In x r <-> exists q, In q cur /\ nfa_path n q [] x)
             (fun s => length (nfa_states n) - length s) (ne_closure_step n) (S (length (nfa_states n))) cur)
    as (r & Hr & HQ).
  - intros s (Hs1 & Hs2 & Hs3 & Hs4). unfold ne_closure_step. destruct (mapR_eps n s Hs2) as (ess & He & Hx). rewrite He. simpl.
    destruct (hs_collect (filter (fun t => negb (mem t s)) (concat ess))) as [|x0 xs] eqn:Ec.
    + eexists; split; [reflexivity|]. split; auto. intros x. split; [apply Hs4|]. intros (q & Hq & Hp).
      apply nfa_path_star in Hp. induction Hp as [|y z Hy IH Hyz]; [apply Hs3; auto|].
      destruct (In_dec z s) as [Hz|Hz]; auto. exfalso.
      assert (In z (hs_collect (filter (fun t => negb (mem t s)) (concat ess)))).
      { rewrite hs_collect_In, filter_negb_mem_In. split; auto. apply Hx. exists y. auto. }
      rewrite Ec in *. auto.
    + assert (Hnew : forall x, In x (x0 :: xs) <-> (exists q, In q s /\ nfa_eps_edge n q x) /\ ~ In x s).
      { intros x. rewrite <- Ec, hs_collect_In, filter_negb_mem_In, Hx. tauto. }
      assert (Hnd2 : NoDup (s ++ x0 :: xs)).
      { apply NoDup_app_iff. split; auto. split; [rewrite <- Ec; apply hs_collect_NoDup|]. intros x Hxs Hxn. apply Hnew in Hxn. tauto. }
      assert (Hr2 : Forall (fun q => q < length (nfa_states n)) (s ++ x0 :: xs)).
      { apply Forall_app. split; auto. apply Forall_forall. intros x Hxn. apply Hnew in Hxn as ((q & _ & Heq) & _).
        eapply nfa_eps_dst; eauto. }
      eexists; split; [reflexivity|]. split.
      * split; auto. split; auto. split; [intros x Hxc; apply in_app_iff; auto|].
        intros x Hxn. apply in_app_iff in Hxn as [Hxn|Hxn]; auto. apply Hnew in Hxn as ((q & Hq & Heq) & _).
        destruct (Hs4 q Hq) as (c & Hc & Hp). exists c. split; auto. apply (nfa_path_app n c [] q [] x); auto.
        eapply nfa_path_eps; eauto. constructor.
      * assert (length (s ++ x0 :: xs) <= length (nfa_states n)).
        { rewrite <- (seq_length (length (nfa_states n)) 0). apply NoDup_incl_length; auto. intros x Hxn.
          rewrite Forall_forall in Hr2. apply in_seq. specialize (Hr2 x Hxn). lia. }
        rewrite app_length in *. simpl in *. lia.
  - split; auto. split; auto. split; [apply incl_refl|]. intros x Hx. exists x. split; auto. constructor.
  - pose proof (pow2_gt (S (length (nfa_states n)))). lia.
  - exists r. tauto.
Qed.

(** ** Evaluators *)
Definition alphabet_map (al : list str) : list (str * nat) := hm_collect (map (fun p => (snd p, fst p)) (enumerate al)).

(** [e] is an evaluator whose current states are those reached by [u] *)
Definition ne_at (n : nfa) (u : word) (unk : bool) (e : nfa_eval) : Prop :=
  ne_nfa e = n /\ ne_rev_map e = alphabet_map (nfa_alphabet n) /\ ne_unknown e = unk /\ NoDup (ne_current e) /\
  forall q, In q (ne_current e) <-> nfa_path n (nfa_initial n) u q.

Lemma ne_at_range n u unk e : nfa_valid n -> ne_at n u unk e -> Forall (fun q => q < length (nfa_states n)) (ne_current e).
Proof.
  intros V (_ & _ & _ & _ & Hin). apply Forall_forall. intros q Hq. apply Hin in Hq.
  eapply nfa_path_range; eauto. apply nv_initial; auto.
Qed.

Lemma nfa_evaluator_at n : nfa_valid n -> exists e, nfa_evaluator n = Ret e /\ ne_at n [] false e.
Proof.
  intros V. unfold nfa_evaluator.
  destruct (ne_include_closure_correct n [nfa_initial n] V) as (r & Hr & Hnd & Hin).
  - repeat constructor; auto.
  - constructor; [apply nv_initial; auto|constructor].
  - rewrite Hr. simpl. eexists; split; [reflexivity|]. repeat split; simpl; auto.
    + rewrite Hin. intros (q' & [<-|[]] & Hp); auto.
    + rewrite Hin. intros Hp. exists (nfa_initial n). split; [left; auto|auto].
Qed.

Lemma mapR_targets n a idx qs : nfa_valid n -> nth_error (nfa_alphabet n) idx = Some a ->
  Forall (fun q => q < length (nfa_states n)) qs ->
  exists tss, mapR (fun q => s <- index (nfa_states n) q ;; index (ns_transitions s) idx) qs = Ret tss /\
              forall x, In x (concat tss) <-> exists q, In q qs /\ nfa_edge n q a x.
Proof.
  intros V Ha Hr. rewrite Forall_forall in Hr.
  destruct (mapR_total (fun q => s <- index (nfa_states n) q ;; index (ns_transitions s) idx)
             (fun q ts => exists s, nth_error (nfa_states n) q = Some s /\ nth_error (ns_transitions s) idx = Some ts) qs)
    as (tss & He & HF).
  { intros q Hq. destruct (nth_error_lt _ _ (Hr q Hq)) as [s Hs]. rewrite (index_Some _ _ _ Hs). simpl.
    destruct (nth_error_lt (ns_transitions s) idx) as [ts Hts].
    { rewrite (nv_width _ V _ _ Hs). eapply nth_error_length; eauto. }
    exists ts. split; [apply index_Some; auto|eauto]. }
  exists tss. split; auto. intros x. rewrite in_concat_iff. split.
  - intros (l & Hl & Hx). destruct (Forall2_In_r _ _ _ _ HF Hl) as (q & Hq & s & Hs & Hts). exists q. split; auto.
    exists idx, s, l. auto.
  - intros (q & Hq & i & s & ts & Hi & Hs & Hts & Hx). destruct (Forall2_In_l _ _ _ _ HF Hq) as (l & Hl & s' & Hs' & Hts').
    assert (i = idx) by exact (NoDup_nth_error_inj _ i idx a (nv_alphabet _ V) Hi Ha). subst.
    exists l. split; auto. congruence.
Qed.

Lemma ne_step_known n u unk e a : nfa_valid n -> ne_at n u unk e -> In a (nfa_alphabet n) ->
  exists e', ne_step e a = Ret (e', true) /\ ne_at n (u ++ [a]) unk e'.
Proof.
  intros V He Ha. assert (Hrange := ne_at_range n u unk e V He). destruct He as (E1 & E2 & E3 & Hnd & Hin).
  unfold ne_step. rewrite E2. apply In_nth_error in Ha as [idx Hidx].
  assert (Hg : hm_get a (alphabet_map (nfa_alphabet n)) = Some idx) by (apply rev_map_get; [apply nv_alphabet; auto|auto]).
  rewrite Hg, E1. destruct (mapR_targets n a idx (ne_current e) V Hidx Hrange) as (tss & Ht & Hx). rewrite Ht. simpl.
  destruct (ne_include_closure_correct n (hs_collect (concat tss)) V (hs_collect_NoDup _)) as (r & Hr & Hnd' & Hin').
  { apply Forall_forall. intros q Hq. rewrite hs_collect_In in Hq. apply Hx in Hq as (p & _ & Hpq). eapply nfa_edge_dst; eauto. }
  rewrite Hr. simpl. eexists; split; [reflexivity|]. repeat split; simpl; auto.
  - rewrite Hin'. intros (t' & Ht' & Hp). rewrite hs_collect_In, Hx in Ht'. destruct Ht' as (t & Hq' & He).
    apply nfa_path_snoc. exists t, t'. rewrite <- Hin. auto.
  - intros Hp. apply nfa_path_snoc in Hp as (t & t' & H1 & H2 & H3). apply Hin'. exists t'.
    rewrite hs_collect_In, Hx. split; auto. exists t. rewrite Hin. auto.
Qed.

Lemma ne_step_unknown n u unk e a : nfa_valid n -> ne_at n u unk e -> ~ In a (nfa_alphabet n) ->
  exists e', ne_step e a = Ret (e', false) /\ ne_at n u true e'.
Proof.
  intros V (E1 & E2 & E3 & Hnd & Hin) Ha. unfold ne_step. rewrite E2.
  assert (Hg : hm_get a (alphabet_map (nfa_alphabet n)) = None) by (apply rev_map_get_None; [apply nv_alphabet; auto|auto]).
  rewrite Hg. eexists; split; [reflexivity|]. repeat split; simpl; auto; apply Hin.
Qed.

Lemma ne_is_accepting_at n u unk e : nfa_valid n -> ne_at n u unk e ->
  exists b, ne_is_accepting e = Ret b /\
            (b = true <-> unk = false /\ exists q, nfa_path n (nfa_initial n) u q /\ nfa_accepting n q).
Proof.
  intros V He. assert (Hrange := ne_at_range n u unk e V He). destruct He as (E1 & E2 & E3 & Hnd & Hin).
  unfold ne_is_accepting. rewrite E3. destruct unk.
  - exists false. split; auto. split; [discriminate|]. intros [H _]. discriminate.
  - rewrite E1.
    destruct (mapR_total (index (nfa_states n)) (fun q s => nth_error (nfa_states n) q = Some s) (ne_current e)) as (ss & Hss & HF).
    { intros q Hq. rewrite Forall_forall in Hrange. destruct (nth_error_lt _ _ (Hrange q Hq)) as [s Hs]. exists s.
      split; auto. apply index_Some; auto. }
    rewrite Hss. simpl. eexists; split; [reflexivity|]. rewrite existsb_exists. split.
    + intros (s & Hs & Ha). split; auto. destruct (Forall2_In_r _ _ _ _ HF Hs) as (q & Hq & Hqs). exists q.
      rewrite <- Hin. split; auto. exists s; auto.
    + intros (_ & q & Hp & s & Hs & Ha). apply Hin in Hp. destruct (Forall2_In_l _ _ _ _ HF Hp) as (s' & Hs' & Hqs).
      exists s'. split; auto. congruence.
Qed.

Lemma ne_steps_over n w u unk e : nfa_valid n -> ne_at n u unk e -> over (nfa_alphabet n) w ->
  exists e', ne_steps e w = Ret (e', true) /\ ne_at n (u ++ w) unk e'.
Proof.
  intros V He Hw; revert u e He. induction Hw as [|a w Ha Hw IH]; intros u e He; simpl.
  - exists e. rewrite app_nil_r. auto.
  - destruct (ne_step_known n u unk e a V He Ha) as (e1 & -> & He1). simpl.
    destruct (IH _ _ He1) as (e' & -> & He'). exists e'. split; auto. rewrite <- app_assoc in He'. auto.
Qed.

(** The elements before the first foreign one *)
Fixpoint known_prefix (al : list str) (w : word) : word :=
  match w with [] => [] | a :: w' => if mem a al then a :: known_prefix al w' else [] end.

Lemma ne_steps_not_over n w u unk e : nfa_valid n -> ne_at n u unk e -> ~ over (nfa_alphabet n) w ->
  exists e', ne_steps e w = Ret (e', false) /\ ne_at n (u ++ known_prefix (nfa_alphabet n) w) true e'.
Proof.
  intros V; revert u e. induction w as [|a w IH]; intros u e He Hn; simpl.
  - exfalso. apply Hn. constructor.
  - destruct (mem_spec a (nfa_alphabet n)) as [Ha|Ha].
    + destruct (ne_step_known n u unk e a V He Ha) as (e1 & -> & He1). simpl.
      destruct (IH _ _ He1) as (e' & -> & He').
      { intros H. apply Hn. constructor; auto. }
      exists e'. split; auto. rewrite <- app_assoc in He'. auto.
    + destruct (ne_step_unknown n u unk e a V He Ha) as (e1 & -> & He1). simpl. exists e1. rewrite app_nil_r. auto.
Qed.

Lemma known_prefix_over al w : over al w -> known_prefix al w = w.
Proof.
  induction 1 as [|a w Ha Hw IH]; simpl; auto. destruct (mem_spec a al); [|tauto]. rewrite IH; auto.
Qed.

Lemma ne_step_multiple_at n w u unk e : nfa_valid n -> ne_at n u unk e ->
  exists e' ok, ne_step_multiple e w = Ret (e', ok) /\ (ok = true <-> over (nfa_alphabet n) w) /\
                ne_at n (u ++ known_prefix (nfa_alphabet n) w) (if ok then unk else true) e'.
Proof.
  intros V He. unfold ne_step_multiple. destruct (over_dec (nfa_alphabet n) w) as [Ho|Ho].
  - destruct (ne_steps_over n w u unk e V He Ho) as (e' & -> & He'). simpl. exists e', true. split; auto. split; [tauto|].
    rewrite known_prefix_over; auto.
  - destruct (ne_steps_not_over n w u unk e V He Ho) as (e' & -> & He'). simpl. eexists; exists false. split; [reflexivity|].
    split; [split; [discriminate|tauto]|]. destruct He' as (E1 & E2 & E3 & Hnd & Hin). repeat split; simpl; auto; apply Hin.
Qed.

Lemma nfa_accepts_correct n w : nfa_valid n -> exists b, nfa_accepts n w = Ret b /\ (b = true <-> nfa_lang n w).
Proof.
  intros V. unfold nfa_accepts. destruct (nfa_evaluator_at n V) as (e & -> & He). simpl.
  destruct (ne_step_multiple_at n w [] false e V He) as (e' & ok & -> & Hok & He'). simpl in *.
  destruct (ne_is_accepting_at n _ _ e' V He') as (b & -> & Hb). exists b. split; auto. rewrite Hb. destruct ok.
  - rewrite (known_prefix_over _ _ (proj1 Hok eq_refl)). unfold nfa_lang, nfa_state_lang. tauto.
  - split; [intros [H _]; discriminate|]. intros H. apply nfa_lang_over in H. apply Hok in H. discriminate.
Qed.

(** ** Histories *)
Definition call_known (al : list str) (c : ev_call) : word :=
  match c with CStep a => if mem a al then [a] else [] | CStepMultiple l => known_prefix al l end.
Definition history_known (al : list str) (cs : list ev_call) : word := concat (map (call_known al) cs).

Lemma call_known_over al c : over al (call_word c) -> call_known al c = call_word c.
Proof.
  destruct c as [a|l]; simpl; intros H.
  - inv H. destruct (mem_spec a al); [auto|tauto].
  - apply known_prefix_over; auto.
Qed.
Lemma history_known_over al cs : over al (history_word cs) -> history_known al cs = history_word cs.
Proof.
  unfold history_known, history_word. induction cs as [|c cs IH]; simpl; auto. intros H. apply over_app in H as [H1 H2].
  rewrite call_known_over, IH; auto.
Qed.

Definition overb (al : list str) (w : word) : bool := forallb (fun a => mem a al) w.
Lemma overb_spec al w : reflect (over al w) (overb al w).
Proof.
  unfold overb. destruct (forallb _ w) eqn:E; constructor.
  - rewrite forallb_forall in E. apply Forall_forall. intros a Ha. apply mem_In; auto.
  - intros H. assert (forallb (fun a => mem a al) w = true); [|congruence]. apply forallb_forall. intros a Ha. apply mem_In.
    unfold over in H. rewrite Forall_forall in H. auto.
Qed.

Lemma ne_call_at n u unk e c : nfa_valid n -> ne_at n u unk e ->
  exists e', ne_call e c = Ret e' /\
    ne_at n (u ++ call_known (nfa_alphabet n) c) (unk || negb (overb (nfa_alphabet n) (call_word c))) e'.
Proof.
  intros V He. destruct c as [a|l]; simpl.
  - destruct (mem_spec a (nfa_alphabet n)) as [Ha|Ha].
    + destruct (ne_step_known n u unk e a V He Ha) as (e' & -> & He'). simpl. exists e'. split; auto. rewrite orb_false_r. auto.
    + destruct (ne_step_unknown n u unk e a V He Ha) as (e' & -> & He'). simpl. exists e'. split; auto.
      rewrite orb_true_r, app_nil_r. auto.
  - destruct (ne_step_multiple_at n l u unk e V He) as (e' & ok & -> & Hok & He'). simpl. exists e'. split; auto.
    destruct (overb_spec (nfa_alphabet n) l) as [Ho|Ho]; destruct ok; simpl; rewrite ?orb_false_r, ?orb_true_r; auto.
    + exfalso. assert (false = true) by tauto. discriminate.
    + exfalso. tauto.
Qed.

Lemma ne_run_at n cs : nfa_valid n ->
  exists e, ne_run n cs = Ret e /\
            ne_at n (history_known (nfa_alphabet n) cs) (negb (overb (nfa_alphabet n) (history_word cs))) e.
Proof.
  intros V. unfold ne_run. destruct (nfa_evaluator_at n V) as (e & -> & He). simpl.
  enough (H : forall cs u unk e, ne_at n u unk e -> exists e', foldR ne_call e cs = Ret e' /\
            ne_at n (u ++ history_known (nfa_alphabet n) cs) (unk || negb (overb (nfa_alphabet n) (history_word cs))) e').
  { destruct (H cs [] false e He) as (e' & -> & He'). eauto. }
  clear e He cs. induction cs as [|c cs IH]; intros u unk e He; simpl.
  - exists e. unfold history_known; simpl. rewrite app_nil_r, orb_false_r. auto.
  - destruct (ne_call_at n u unk e c V He) as (e1 & -> & He1). simpl. destruct (IH _ _ _ He1) as (e' & -> & He').
    exists e'. split; auto. unfold history_known, history_word in *; simpl. unfold overb in *. rewrite forallb_app, negb_andb, orb_assoc.
    rewrite app_assoc. auto.
Qed.

Lemma ne_steps_flag n (V : nfa_valid n) l : forall u unk e, ne_at n u unk e ->
  exists e' b, ne_steps e l = Ret (e', b) /\ (b = true <-> over (nfa_alphabet n) l).
Proof.
  induction l as [|a l IH]; intros u unk e Ha; simpl.
  - exists e, true. split; auto. split; auto. intros _. constructor.
  - destruct (in_dec (fun x y : str => list_eq_dec N.eq_dec x y) a (nfa_alphabet n)) as [Hi|Hi].
    + destruct (ne_step_known _ _ _ _ _ V Ha Hi) as (e' & He' & Ha'). rewrite He'. cbn [bind].
      destruct (IH _ _ _ Ha') as (e2 & b & H2 & Hb). exists e2, b. split; auto. rewrite Hb. split.
      * intros; constructor; auto.
      * intros H. inversion H; auto.
    + destruct (ne_step_unknown _ _ _ _ _ V Ha Hi) as (e' & He' & _). rewrite He'. cbn [bind]. exists e', false.
      split; auto. split; [discriminate|]. intros H. inversion H. tauto.
Qed.
