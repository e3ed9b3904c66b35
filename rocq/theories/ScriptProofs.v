(** * ScriptProofs: sequences of runs that pass files to each other *)
From Coq Require Import Ascii String List NArith Arith Bool Lia.
From Verif Require Import Base BaseLemmas Spec TableSpec LayoutSpec DfaModel ValidateModel TableModel ApiModel Messages CliModel CliSpec CliProofs FileModel FileSpec FileProofs
  ArgsModel ArgsSpec CliReproSpec CliReproProofs ScriptSpec.
Import ListNotations.
Close Scope string_scope.
Open Scope list_scope.

Lemma holds_text env m m' f : m_text m' (f_path f) = m_text m (f_path f) -> holds env m f -> holds env m' f.
Proof.
  intros E (a & (u & Eu & Rd) & H). exists a. split; auto. exists u. split; auto. cbn [ce_read on] in *. rewrite E. auto.
Qed.

(** One run *)
Lemma one_run env m hs b ms argv nl second compared r f1 f2 :
  match second with Some t => t | None => sr_first_type r end = sr_second_type r ->
  asks_for argv (run_args nl second compared r) -> holds env m f1 -> f_path f1 = sr_first r -> f_type f1 = sr_first_type r ->
  holds env m f2 -> f_path f2 = sr_second r -> f_type f2 = sr_second_type r ->
  same_set (f_alphabet f1) (f_alphabet f2) -> f_alphabet f1 <> [] -> Forall legal_token (f_alphabet f1) ->
  m_same m (sr_out r) (sr_first r) = false -> m_same m (sr_out r) (sr_second r) = false -> m_same m (sr_out r) (sr_out r) = true -> creatable m (sr_out r) ->
  exists res m', dandy (rebuilt env b ms) m hs argv = Some (Ret (res, m')) /\ mr_stderr res = [] /\ m_same m' = m_same m /\ m_create m' = m_create m /\
    holds env m' (mk_fact (sr_out r) TDfa (f_alphabet f1) (fun w => set_op_spec (sr_operation r) (f_lang f1 w) (f_lang f2 w))) /\
    forall q, m_same m (sr_out r) q = false -> m_text m' q = m_text m q.
Proof.
  intros AT A (a1 & L1 & A1 & W1) P1 T1 (a2 & L2 & A2 & W2) P2 T2 SA NA LA S1 S2 S3 (u & Cu).
  rewrite (dandy_asked _ _ _ _ _ _ _ A). cbn [da_no_log da_out da_command run_args].
  set (env' := rebuilt (with_log env (negb nl)) b ms). rewrite P1, T1 in L1. rewrite P2, T2 in L2.
  match goal with |- context [file_main env' m hs _ ?o] => set (op := o) end.
  destruct (main_chain env' m hs (sr_out r) u (sr_operation r) (mk_binary_op_args (sr_first_type r) second compared (sr_minimized r) None
              (sr_first r) (sr_second r) None) a1 a2 Cu) as (res & m' & d & E & Se & Rd & V & Ad & Wd & _); auto.
  - intros p q Hp Hq. injection Hp as <-. cbn in Hq. destruct Hq as [<-|[<-|[]]]; auto.
  - cbn [ba_second_type ba_type ba_second]. rewrite AT. exact L2.
  - rewrite A1, A2. auto.
  - rewrite A1. auto.
  - rewrite A1. auto.
  - destruct (file_main_spec env' m hs (Some (sr_out r)) op) as (res' & m2 & out & lg & rr & E2 & _ & _ & _ & _ & _ & (Sm & Cr & _ & Ot)).
    unfold op in E2. rewrite E in E2. injection E2 as <- <-. exists res, m'. split; [rewrite <- E; reflexivity|]. split; auto. split; auto. split; auto. split.
    + exists (ADfa d). split; [exact (Rd _ S3)|]. split; [cbn; congruence|]. intros w. cbn [a_lang f_lang]. rewrite Wd.
      pose proof (W1 w). pose proof (W2 w). destruct (sr_operation r); cbn [set_op_spec]; tauto.
    + intros q Hq. apply Ot. intros p u' Hp _. injection Hp as <-. auto.
Qed.

Lemma script_correct env same creates K rs K' : tells same creates K rs K' -> forall m l, m_same m = same ->
  (forall p, creates p -> creatable m p) -> Forall (holds env m) K -> Forall2 starts l rs ->
  exists results m', shell env m l = Some (Ret (results, m')) /\ Forall (fun res => mr_stderr res = []) results /\ length results = length rs /\
    m_same m' = same /\ m_create m' = m_create m /\ Forall (holds env m') K' /\
    forall q, (forall r, In r rs -> same (sr_out r) q = false) -> m_text m' q = m_text m q.
Proof.
  induction 1 as [K|K r rs K' f1 f2 I1 P1 T1 I2 P2 T2 SA NA LA S1 S2 S3 C HT IH]; intros m l Sm Cm HK HS; inversion HS as [|s ? l' ? (nl & sec & cmp & AT & A) HS']; subst.
  - exists [], m. cbn. repeat split; auto.
  - rewrite Forall_forall in HK.
    destruct (one_run env m (st_orders s) (st_debug s) (st_millis s) (st_argv s) nl sec cmp r f1 f2 AT A) as (res & m1 & E & Se & Sm1 & Cm1 & Hn & Ot); auto.
    destruct (IH m1 l') as (results & m' & E' & Se' & Len & Sm' & Cm' & HK' & Ot'); auto.
    + intros p Hp. unfold creatable. rewrite Cm1. apply Cm. auto.
    + constructor; auto. apply Forall_forall. intros f Hf. apply filter_In in Hf as [Hf Hs]. apply (holds_text env m); auto.
      apply Ot. apply negb_true_iff. auto.
    + exists (res :: results), m'. cbn [shell]. rewrite E, E'. split; auto. split; [constructor; auto|]. split; [cbn; auto|]. split; auto.
      split; [congruence|]. split; auto. intros q Hq. rewrite Ot' by (intros; apply Hq; right; auto). apply Ot. apply Hq. left. auto.
Qed.

(** ** Expressions *)
Lemma runs_for_out tmp e : forall k rs p k', runs_for tmp k e = (rs, p, k') -> k <= k' /\ (forall r, In r rs -> exists i, k <= i < k' /\ sr_out r = tmp i) /\
  (exists f, In f (e_files e) /\ p = (f_path f, f_type f) \/ exists i, k <= i < k' /\ p = (tmp i, TDfa)).
Proof.
  induction e as [f|o mn e1 IH1 e2 IH2]; intros k rs p k' E; cbn [runs_for] in E.
  - injection E as <- <- <-. split; [lia|]. split; [intros r []|]. exists f. left. cbn. auto.
  - destruct (runs_for tmp k e1) as [[r1 [p1 t1]] k1] eqn:E1. destruct (runs_for tmp k1 e2) as [[r2 [p2 t2]] k2] eqn:E2. injection E as <- <- <-.
    destruct (IH1 _ _ _ _ E1) as (L1 & O1 & (f & _)). destruct (IH2 _ _ _ _ E2) as (L2 & O2 & _). split; [lia|]. split.
    + intros r Hr. apply in_app_iff in Hr as [Hr|Hr]; [|apply in_app_iff in Hr as [Hr|[<-|[]]]].
      * destruct (O1 r Hr) as (i & Hi & ->). exists i. split; [lia|auto].
      * destruct (O2 r Hr) as (i & Hi & ->). exists i. split; [lia|auto].
      * exists k2. cbn. split; [lia|auto].
    + exists f. right. exists k2. split; [lia|auto].
Qed.
Lemma tells_app same creates K rs K1 rs' K2 : tells same creates K rs K1 -> tells same creates K1 rs' K2 -> tells same creates K (rs ++ rs') K2.
Proof.
  induction 1 as [K|K r rs K' f1 f2 I1 P1 T1 I2 P2 T2 SA NA LA S1 S2 S3 C HT IH]; intros H'; [exact H'|]. cbn [app].
  apply (tells_run same creates K r (rs ++ rs') K2 f1 f2); auto.
Qed.

(** What is known afterwards about the files that are not written *)
Lemma tells_keeps same creates K rs K' : tells same creates K rs K' -> forall f, In f K -> (forall r, In r rs -> same (sr_out r) (f_path f) = false) -> In f K'.
Proof.
  induction 1 as [K|K r rs K' f1 f2 I1 P1 T1 I2 P2 T2 SA NA LA S1 S2 S3 C HT IH]; intros f Hf Hs; auto.
  apply IH; [|intros; apply Hs; right; auto]. right. apply filter_In. split; auto. rewrite Hs; [reflexivity|left; auto].
Qed.

Lemma expression_tells same (creates : str -> Prop) tmp A e :
  (forall i j, same (tmp i) (tmp j) = (i =? j)) -> (forall i, creates (tmp i)) -> A <> [] -> Forall legal_token A ->
  (forall f, In f (e_files e) -> same_set (f_alphabet f) A /\ forall i, same (tmp i) (f_path f) = false) ->
  forall k rs p t k' K, runs_for tmp k e = (rs, (p, t), k') -> (forall f, In f (e_files e) -> In f K) ->
  exists K', tells same creates K rs K' /\ In (mk_fact p t (e_alphabet e) (e_lang e)) K' /\ same_set (e_alphabet e) A /\
    (forall i, k' <= i -> same (tmp i) p = false) /\ (forall i, i < k -> same (tmp i) p = false).
Proof.
  intros ST CT NA LA. induction e as [f|o mn e1 IH1 e2 IH2]; intros HF k rs p t k' K E HK; cbn [runs_for] in E.
  - injection E as <- <- <- <-. destruct (HF f) as [HS HT]; [left; auto|]. exists K. split; [constructor|]. split; [|repeat split; auto; apply HS].
    cbn [e_alphabet e_lang]. assert (X : mk_fact (f_path f) (f_type f) (f_alphabet f) (fun w => f_lang f w) = f) by (destruct f; reflexivity).
    rewrite X. apply HK. left. auto.
  - destruct (runs_for tmp k e1) as [[r1 [p1 t1]] k1] eqn:E1. destruct (runs_for tmp k1 e2) as [[r2 [p2 t2]] k2] eqn:E2. injection E as <- <- <- <-.
    destruct (runs_for_out _ _ _ _ _ _ E1) as (L1 & O1 & _). destruct (runs_for_out _ _ _ _ _ _ E2) as (L2 & O2 & _).
    assert (HF1 : forall f, In f (e_files e1) -> same_set (f_alphabet f) A /\ forall i, same (tmp i) (f_path f) = false)
      by (intros; apply HF; cbn; apply in_app_iff; auto).
    assert (HF2 : forall f, In f (e_files e2) -> same_set (f_alphabet f) A /\ forall i, same (tmp i) (f_path f) = false)
      by (intros; apply HF; cbn; apply in_app_iff; auto).
    destruct (IH1 HF1 k r1 p1 t1 k1 K E1) as (K1 & T1 & I1 & S1 & F1 & _); [intros; apply HK; cbn; apply in_app_iff; auto|].
    destruct (IH2 HF2 k1 r2 p2 t2 k2 K1 E2) as (K2 & T2 & I2 & S2 & F2 & _).
    { intros f Hf. apply (tells_keeps _ _ _ _ _ T1); [apply HK; cbn; apply in_app_iff; auto|].
      intros r Hr. destruct (O1 r Hr) as (i & _ & ->). apply HF2. auto. }
    assert (I1' : In (mk_fact p1 t1 (e_alphabet e1) (e_lang e1)) K2).
    { apply (tells_keeps _ _ _ _ _ T2); auto. intros r Hr. destruct (O2 r Hr) as (i & Hi & ->). apply F1. lia. }
    eexists. split; [apply (tells_app _ _ _ _ K1); [exact T1|]; apply (tells_app _ _ _ _ K2); [exact T2|]|].
    + eapply tells_run; [exact I1'|reflexivity|reflexivity|exact I2|reflexivity|reflexivity| | | | | | | |apply tells_end]; cbn [f_alphabet sr_out sr_first sr_second]; auto.
      * intros x. rewrite (S1 x), (S2 x). tauto.
      * intros Z. rewrite Z in S1. destruct A as [|a A]; [auto|]. destruct (proj2 (S1 a)); left; auto.
      * apply Forall_forall. intros x Hx. rewrite Forall_forall in LA. apply LA, S1. auto.
      * rewrite ST. apply Nat.eqb_refl.
    + cbn [sr_out sr_operation f_alphabet f_lang e_alphabet e_lang]. split; [left; reflexivity|]. split; auto. split; intros i Hi; rewrite ST; apply Nat.eqb_neq; lia.
Qed.

(** ** Reading the result *)
Lemma compare_run env m hs b ms argv f g bl : holds env m f -> holds env m g ->
  asks_for argv (mk_dandy_args None true (OpEquivalence (mk_equivalence_args (Some (f_type f)) (f_type g) false bl None (f_path f) [f_path g]))) ->
  exists v, (v = true <-> same_set (f_alphabet f) (f_alphabet g) /\ forall w, f_lang f w <-> f_lang g w) /\
    dandy (rebuilt env b ms) m hs argv =
    Some (Ret (mk_main_result (f_path g ++ of_string ": " ++
                               of_string (if bl then if v then "true" else "false" else if v then "Equivalent" else "Not Equivalent") ++ [10%N]) [] None, m)).
Proof.
  intros (a & L & Aa & Wa) (a' & L' & Aa' & Wa') Q. rewrite (dandy_asked _ _ _ _ _ _ _ Q). cbn [da_no_log da_out da_command negb].
  match goal with |- context [file_main ?e m hs None ?o] => set (env' := e); set (op := o) end.
  assert (LL : loads (on env' m) (f_path f) (f_type f) a) by exact L. assert (LL' : loads (on env' m) (f_path g) (f_type g) a') by exact L'.
  destruct (file_main_spec env' m hs None op) as (res & m' & out & lg & r & E & O & (lines & I & So) & Lg & Se & Sf & W). rewrite (Lg eq_refl) in I.
  assert (EO : out = lines) by (clear - I; remember (@nil str) as n; induction I; try discriminate; auto; f_equal; auto). subst lines.
  assert (SM : same_meaning a a' <-> same_set (f_alphabet f) (f_alphabet g) /\ forall w, f_lang f w <-> f_lang g w).
  { unfold same_meaning. rewrite Aa, Aa'. split; intros [S H]; (split; [exact S|]); intros w; specialize (H w); specialize (Wa w); specialize (Wa' w); tauto. }
  assert (EM : m' = m).
  { unfold file_main in E. destruct (file_operation env' m hs None op) as [[ev r0]| |]; try discriminate. cbn [bind] in E. injection E as _ <-.
    unfold reading. destruct m; reflexivity. }
  subst m'. rewrite E. cbn [file_outcome op_outcome op] in O. unfold after_writing, equivalence_outcome in O.
  change (on env' _) with (on env' m) in O. cbn [ea_in_type ea_type ea_minimized ea_automata ea_files] in O.
  destruct O as [(e & R & _)|[(u & mm & R & IE & _)|[(a0 & _ & X & _)|(a0 & vs & k & L0 & _ & F & P & Eo & Er & _)]]].
  - destruct LL as (u & R' & _). cbn [ce_read on] in *. congruence.
  - exfalso. destruct LL as (u' & R' & Rd). rewrite R in R'. injection R' as <-. destruct IE as [(X & _)|(x & y & X & _)];
      [apply X; eapply reads_parses; eauto|eapply reads_no_defect; eauto].
  - discriminate X.
  - pose proof (loads_unique _ _ _ _ _ L0 LL) as ->. inversion F as [|? v ? vs' V F']; subst. inversion F'; subst.
    assert (EV : exists b0 : bool, (b0 = true <-> same_meaning a a') /\ v = if b0 then Equivalent else NotEquivalent).
    { unfold verdict in V. destruct LL' as (u & R & Rd). rewrite R in V. destruct v; cbn [ea_type ea_minimized] in V.
      - destruct V.
      - destruct V as (X & _). exfalso. apply X. eapply reads_parses; eauto.
      - destruct V as (x & X & _). exfalso. eapply reads_no_defect; eauto.
      - destruct V as (x & X & Y). pose proof (reads_unique _ _ _ _ _ X Rd) as ->. exists false. split; auto. split; [discriminate|tauto].
      - destruct V as (X & _). discriminate X.
      - destruct V as (x & X & Y & _). pose proof (reads_unique _ _ _ _ _ X Rd) as ->. exists true. split; auto. tauto. }
    destruct EV as (v0 & Hv & ->). exists v0. split; [rewrite Hv; exact SM|]. destruct res as [so se sf]. cbn [mr_stdout mr_stderr mr_file] in *.
    subst so se sf. cbn [op map combine]. unfold verdict_line, last_n_components, with_lf. cbn [ea_path_length ea_bool map concat app].
    rewrite app_nil_r, <- !app_assoc. destruct bl, v0; reflexivity.
Qed.

Lemma enumerate_run env m hs b ms argv f n : holds env m f ->
  asks_for argv (mk_dandy_args None true (OpEnumerateFile (f_type f) n (f_path f))) ->
  exists ws, first_words (f_alphabet f) (f_lang f) n ws /\
    dandy (rebuilt env b ms) m hs argv = Some (Ret (mk_main_result (with_lf (map word_text ws)) [] None, m)).
Proof.
  intros (a & L & Aa & Wa) Q. rewrite (dandy_asked _ _ _ _ _ _ _ Q). cbn [da_no_log da_out da_command negb].
  match goal with |- context [file_main ?e m hs None ?o] => set (env' := e); set (op := o) end.
  assert (LL : loads (on env' m) (f_path f) (f_type f) a) by exact L.
  destruct (file_main_spec env' m hs None op) as (res & m' & out & lg & r & E & O & (lines & I & So) & Lg & Se & Sf & W). rewrite (Lg eq_refl) in I.
  assert (EO : out = lines) by (clear - I; remember (@nil str) as nn; induction I; try discriminate; auto; f_equal; auto). subst lines.
  assert (EM : m' = m).
  { unfold file_main in E. destruct (file_operation env' m hs None op) as [[ev r0]| |]; try discriminate. cbn [bind] in E. injection E as _ <-.
    unfold reading. destruct m; reflexivity. }
  subst m'. rewrite E. cbn [file_outcome op_outcome op] in O. unfold after_writing in O. change (on env' _) with (on env' m) in O.
  destruct O as [(e & X & _)|(a0 & ws & L0 & FW & Eo & Er)]; [destruct (loads_no_error _ _ _ _ _ LL X)|].
  pose proof (loads_unique _ _ _ _ _ L0 LL) as ->. exists ws. split.
  - rewrite Aa in FW. destruct FW as (H1 & H2 & l & H3 & H4 & H5). split; auto. split; [intros w Hw; apply Wa; auto|]. exists l. split; auto. split; auto.
    intros idx w Hs Hl. apply H5; auto. apply Wa. auto.
  - destruct res as [so se sf]. cbn [mr_stdout mr_stderr mr_file] in *. subst. reflexivity.
Qed.

(** ** Which languages expressions can denote *)
(** the words of [u] whose bits satisfy [fn] *)
Fixpoint within (u : file_expr) (fs : list fact) (fn : list bool -> bool) : file_expr :=
  match fs with
  | [] => if fn [] then u else EOp ODifference false u u
  | f :: fs => EOp OUnion false (within (EOp OIntersection false u (EFile f)) fs (fun bs => fn (true :: bs)))
                                (within (EOp ODifference false u (EFile f)) fs (fun bs => fn (false :: bs)))
  end.
Lemma within_lang fs : forall u fn w bits, member_bits fs w bits -> (e_lang (within u fs fn) w <-> e_lang u w /\ fn bits = true).
Proof.
  induction fs as [|f fs IH]; intros u fn w bits B; inversion B as [|? b ? bs Hb HB]; subst; cbn [within].
  - destruct (fn []); cbn; intuition congruence.
  - cbn [e_lang set_op_spec]. rewrite (IH _ _ w bs HB), (IH _ _ w bs HB). cbn [e_lang set_op_spec]. rewrite <- Hb.
    destruct b; intuition congruence.
Qed.
Lemma within_files fs : forall u fn f, In f (e_files (within u fs fn)) -> In f (e_files u) \/ In f fs.
Proof.
  induction fs as [|g fs IH]; intros u fn f; cbn [within].
  - destruct (fn []); cbn [e_files]; rewrite ?in_app_iff; tauto.
  - cbn [e_files]. rewrite in_app_iff. intros [H|H]; apply IH in H; cbn [e_files] in H; rewrite in_app_iff in H; cbn in *; tauto.
Qed.
Fixpoint union_of (f : fact) (fs : list fact) : file_expr :=
  match fs with [] => EFile f | g :: fs => EOp OUnion false (EFile f) (union_of g fs) end.
Lemma union_of_lang fs : forall f w, e_lang (union_of f fs) w <-> exists g, In g (f :: fs) /\ f_lang g w.
Proof.
  induction fs as [|g fs IH]; intros f w; cbn [union_of e_lang set_op_spec].
  - split; [exists f; split; [left|]; auto|]. intros (x & [->|[]] & H). auto.
  - rewrite IH. split.
    + intros [H|(x & Hx & H)]; [exists f; split; [left|]; auto|exists x; split; [right|]; auto].
    + intros (x & [->|Hx] & H); eauto.
Qed.
Lemma union_of_files fs : forall f, e_files (union_of f fs) = f :: fs.
Proof. induction fs as [|g fs IH]; intros f; cbn; [|rewrite IH]; reflexivity. Qed.
Lemma no_member fs : forall w bits, member_bits fs w bits -> (forall g, In g fs -> ~ f_lang g w) -> bits = repeat false (length fs).
Proof.
  induction fs as [|f fs IH]; intros w bits B H; inversion B as [|? b ? bs Hb HB]; subst; cbn [length repeat]; auto.
  f_equal; [|apply (IH w); auto; intros g Hg; apply H; right; auto]. destruct b; auto. exfalso. apply (H f); [left; auto|]. apply Hb. auto.
Qed.
Lemma expressible fs fn : fs <> [] -> fn (repeat false (length fs)) = false -> exists e, (forall f, In f (e_files e) -> In f fs) /\ denotes fs e fn.
Proof.
  intros N Z. destruct fs as [|f fs]; [congruence|]. exists (within (union_of f fs) (f :: fs) fn). split.
  - intros g Hg. apply within_files in Hg as [Hg|Hg]; auto. rewrite union_of_files in Hg. auto.
  - intros w bits B. rewrite (within_lang _ _ _ w bits B), union_of_lang. split; [tauto|]. intros H. split; auto.
    destruct (existsb (fun b => b) bits) eqn:E.
    + apply existsb_exists in E as (b & Hb & Eb). destruct (In_nth_error _ _ Hb) as (i & Hi).
      destruct (Forall2_nth_r _ _ _ B i b Hi) as (g & Hg & HR). exists g. split; [eapply nth_error_In; eauto|]. apply HR. auto.
    + rewrite (no_member _ _ _ B) in H; [congruence|]. intros g Hg HL. apply In_nth_error in Hg as (i & Hi).
      destruct (Forall2_nth _ _ _ B i g Hi) as (b & Hb & HR). apply HR in HL. subst b. apply nth_error_In in Hb.
      assert (X : existsb (fun b => b) bits = true) by (apply existsb_exists; eauto). congruence.
Qed.
Lemma expressed fs e : (forall f, In f (e_files e) -> In f fs) -> exists fn, fn (repeat false (length fs)) = false /\ denotes fs e fn.
Proof.
  induction e as [f|o mn e1 IH1 e2 IH2]; intros H.
  - destruct (In_nth_error fs f) as (i & Hi); [apply H; left; auto|]. exists (fun bs => nth i bs false). split.
    + apply nth_repeat.
    + intros w bits B. destruct (Forall2_nth _ _ _ B i f Hi) as (b & Hb & HR). cbn [e_lang]. rewrite <- HR.
      rewrite (nth_error_nth _ _ _ Hb). tauto.
  - destruct IH1 as (f1 & Z1 & D1); [intros; apply H; cbn; apply in_app_iff; auto|].
    destruct IH2 as (f2 & Z2 & D2); [intros; apply H; cbn; apply in_app_iff; auto|].
    exists (fun bs => match o with OUnion => f1 bs || f2 bs | OIntersection => f1 bs && f2 bs | ODifference => f1 bs && negb (f2 bs)
                             | OSymmetricDifference => xorb (f1 bs) (f2 bs) end). split.
    + rewrite Z1, Z2. destruct o; reflexivity.
    + intros w bits B. cbn [e_lang]. specialize (D1 w bits B). specialize (D2 w bits B).
      destruct o; cbn [set_op_spec]; rewrite D1, D2; destruct (f1 bits), (f2 bits); cbn; intuition congruence.
Qed.
Lemma outside fs e w : (forall f, In f (e_files e) -> In f fs) -> (forall f, In f fs -> ~ f_lang f w) -> ~ e_lang e w.
Proof.
  intros H N. induction e as [f|o mn e1 IH1 e2 IH2]; cbn [e_lang].
  - apply N, H. left. auto.
  - assert (~ e_lang e1 w) by (apply IH1; intros; apply H; cbn; apply in_app_iff; auto).
    assert (~ e_lang e2 w) by (apply IH2; intros; apply H; cbn; apply in_app_iff; auto). destruct o; cbn; tauto.
Qed.
Lemma e_alphabet_set A e : (forall f, In f (e_files e) -> same_set (f_alphabet f) A) -> same_set (e_alphabet e) A.
Proof. induction e as [f|o mn e1 IH1 e2 IH2]; intros H; cbn; [apply H; left; auto|]. apply IH1. intros f Hf. apply H. cbn. apply in_app_iff. auto. Qed.
