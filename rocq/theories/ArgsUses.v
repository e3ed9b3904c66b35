(** * ArgsUses: what follows from how command lines are read *)
From Coq Require Import Ascii String List NArith Arith Bool Lia Permutation Decimal DecimalString DecimalNat.
From Verif Require Import Base Spec TableSpec TableModel Messages MessageSpec ApiModel CliModel FileModel ArgsModel ArgsSpec ArgsProofs.
Import ListNotations.
Close Scope string_scope.
Open Scope list_scope.

(** ** Numbers *)

Lemma digits_of_uint d : forall acc,
  fold_left (fun n c => n * 10 + (c - 48))%N (of_string (NilEmpty.string_of_uint d)) (N.of_nat acc) = N.of_nat (Nat.of_uint_acc d acc).
Proof.
  unfold of_string. induction d as [|d IH|d IH|d IH|d IH|d IH|d IH|d IH|d IH|d IH|d IH]; intros acc; [reflexivity|..];
    cbn [NilEmpty.string_of_uint list_ascii_of_string map Nat.of_uint_acc]; rewrite <- IH, Nat.tail_mul_spec; cbn [fold_left];
    (apply (f_equal (fold_left _ _)));
    match goal with |- context [N_of_ascii ?c] => let x := eval vm_compute in (N_of_ascii c) in change (N_of_ascii c) with x end; lia.
Qed.
Lemma uint_digits d : Forall (fun c => 48 <= c <= 57)%N (of_string (NilEmpty.string_of_uint d)).
Proof.
  unfold of_string. induction d as [|d IH|d IH|d IH|d IH|d IH|d IH|d IH|d IH|d IH|d IH]; cbn [NilEmpty.string_of_uint list_ascii_of_string map];
    constructor; auto; cbn; lia.
Qed.
Lemma reads_decimal n : small n -> reads_number (decimal n) n.
Proof.
  intros Hn. exists (decimal n). split; [left; reflexivity|]. unfold decimal. split; [|split; [apply uint_digits|split; [|exact Hn]]].
  - pose proof (DecimalNat.Unsigned.of_to n) as H. destruct (Nat.to_uint n) eqn:E; try discriminate.
    cbv in H. subst n. discriminate E.
  - unfold digits_value. change 0%N with (N.of_nat 0). rewrite digits_of_uint. f_equal.
    exact (DecimalNat.Unsigned.of_to n).
Qed.

(** ** Every run can be asked for *)

Lemma write_assign (O : options) l c v gs ps argv : O (of_string l) c true -> writes_command O gs ps argv ->
  writes_command O ((of_string l, Some v) :: gs) ps (assign l v ++ argv).
Proof. intros HO W. apply (command_option O [(of_string l, Some v)]); auto. eapply long_equals; eauto. Qed.
Definition setting_opt {A} (l : string) (text : A -> str) (o : option A) : settings :=
  match o with Some a => [(of_string l, Some (text a))] | None => [] end.
Lemma write_assign_opt {A} (O : options) l c (text : A -> str) o gs ps argv : O (of_string l) c true -> writes_command O gs ps argv ->
  writes_command O (setting_opt l text o ++ gs) ps (assign_opt l text o ++ argv).
Proof. intros HO W. destruct o; simpl; auto. eapply (write_assign O l c); eauto. Qed.
Definition setting_flag (l : string) (b : bool) : settings := if b then [(of_string l, None)] else [].
Lemma write_flag (O : options) l c b gs ps argv : O (of_string l) c false -> writes_command O gs ps argv ->
  writes_command O (setting_flag l b ++ gs) ps (set_flag l b ++ argv).
Proof.
  intros HO W. destruct b; simpl; auto.
  apply (command_option O [(of_string l, None)] [hyphen :: hyphen :: of_string l]); auto. eapply long_flag; eauto.
Qed.

Ltac no_dup := repeat (constructor; [simpl; intros C; repeat (destruct C as [C | C]; [discriminate C|]); destruct C|]); constructor.
Ltac not_in := let v := fresh "v" in let C := fresh "C" in
  simpl; intros v C; repeat (destruct C as [C | C]; [discriminate C|]); destruct C.

Lemma reads_type_word t : reads_type (type_word t) t. Proof. reflexivity. Qed.

Lemma command_written op : possible (mk_dandy_args None false op) ->
  exists cgs ps, writes_command (command_options op) cgs ps (command_arguments op) /\ NoDup (map fst cgs) /\ command_means op cgs ps.
Proof.
  intros [_ P]. simpl in P.
  destruct op as [[i t m b n f fs]|o [t s c m n f f2 f3]|n r|t n f|t u f fs]; simpl in P;
    cbn [command_options command_arguments command_means ea_in_type ea_type ea_minimized ea_bool ea_path_length ea_automata ea_files
         ba_type ba_second_type ba_compared_type ba_minimized ba_enumerate ba_first ba_second ba_compare_against].
  - destruct P as (Pn & Pf & Pfs).
    eexists; eexists; split; [|split].
    + eapply write_assign_opt; [constructor|]. eapply write_assign; [constructor|]. eapply write_flag; [constructor|].
      eapply write_flag; [constructor|]. eapply write_assign_opt; [constructor|]. apply command_rest.
    + destruct i, m, b, n; no_dup.
    + split; [destruct i as [i|]; [exists (type_word i); split; [left; reflexivity|reflexivity]|destruct m, b, n; not_in]|].
      split; [left; exists (type_word t); split; [destruct i; simpl; auto|reflexivity]|].
      split; [unfold flag_is; destruct m; split; auto; [intros _; destruct i; simpl; auto|discriminate|destruct i, b, n; simpl; intros C; repeat (destruct C as [C | C]; [discriminate C|]); destruct C]|].
      split; [unfold flag_is; destruct b; split; auto; [intros _; destruct i, m; simpl; auto|discriminate|destruct i, m, n; simpl; intros C; repeat (destruct C as [C | C]; [discriminate C|]); destruct C]|].
      split; [destruct n as [n|]; [exists (decimal n); split; [destruct i, m, b; simpl; auto 8|apply reads_decimal; auto]|destruct i, m, b; not_in]|].
      split; [reflexivity|]. intros p [<- | H]; auto.
  - destruct P as (Pn & Pf & Pf2 & Pf3).
    eexists; eexists; split; [|split].
    + eapply write_assign; [constructor|]. eapply write_assign_opt; [constructor|]. eapply write_assign; [constructor|].
      eapply write_flag; [constructor|]. eapply write_assign_opt; [constructor|]. apply command_rest.
    + destruct s, m, n; no_dup.
    + split; [left; exists (type_word t); split; [simpl; auto|reflexivity]|].
      split; [destruct s as [s|]; [exists (type_word s); split; [simpl; auto|reflexivity]|destruct m, n; not_in]|].
      split; [left; exists (type_word c); split; [destruct s; simpl; auto|reflexivity]|].
      split; [unfold flag_is; destruct m; split; auto; [intros _; destruct s; simpl; auto|discriminate|destruct s, n; simpl; intros C; repeat (destruct C as [C | C]; [discriminate C|]); destruct C]|].
      split; [destruct n as [n|]; [exists (decimal n); split; [destruct s, m; simpl; auto 8|apply reads_decimal; auto]|destruct s, m; not_in]|].
      split; [reflexivity|]. intros p [<- | [<- | H]]; auto. destruct f3 as [f3|]; [destruct H as [<- | []]; intros C; apply Pf3; rewrite C; reflexivity|destruct H].
  - eexists; eexists; split; [|split].
    + eapply write_assign; [constructor|]. apply (command_rest _ [r]).
    + no_dup.
    + split; [left; exists (decimal n); split; [left; reflexivity|apply reads_decimal; auto]|reflexivity].
  - destruct P as (Pn & Pf). eexists; eexists; split; [|split].
    + eapply write_assign; [constructor|]. eapply write_assign; [constructor|]. apply (command_rest _ [f]).
    + no_dup.
    + split; [left; exists (type_word t); split; [left; reflexivity|reflexivity]|].
      split; [left; exists (decimal n); split; [right; left; reflexivity|apply reads_decimal; auto]|]. auto.
  - destruct P as (Pf & Pfs). eexists; eexists; split; [|split].
    + eapply write_assign; [constructor|]. eapply write_assign; [constructor|]. apply command_rest.
    + no_dup.
    + split; [left; exists (type_word t); split; [left; reflexivity|reflexivity]|].
      split; [left; eexists; split; [right; left; reflexivity|reflexivity]|].
      split; [reflexivity|]. intros p [<- | H]; auto.
Qed.
Theorem every_run a : possible a -> asks_for (arguments a) a.
Proof.
  intros P. destruct (command_written (da_command a)) as (cgs & ps & Wc & NDc & M).
  { destruct P as [_ P]. split; [discriminate|exact P]. }
  exists (setting_opt "out" (fun p => p) (da_out a) ++ setting_flag "less-logs" (da_no_log a)), cgs, ps, (command_arguments (da_command a)).
  destruct P as [Po _]. unfold arguments.
  split; [|split; [|split; [|split; [|auto]]]].
  - rewrite <- (app_nil_r (setting_flag _ _)).
    assert (W0 : writes_program program_options (setting_flag "less-logs" (da_no_log a) ++ []) (command_name (da_command a))
                   (command_arguments (da_command a)) (set_flag "less-logs" (da_no_log a) ++ command_name (da_command a) :: command_arguments (da_command a))).
    { destruct (da_no_log a); simpl; [|constructor].
      apply (program_option program_options [(of_string "less-logs", None)] [hyphen :: hyphen :: of_string "less-logs"]); [|constructor].
      eapply long_flag. constructor. }
    destruct (da_out a) as [p|]; simpl; auto.
    apply (program_option program_options [(of_string "out", Some p)] [hyphen :: hyphen :: of_string "out" ++ equals :: p]); auto.
    eapply long_equals. constructor.
  - destruct (da_out a), (da_no_log a); no_dup.
  - destruct (da_out a) as [p|]; simpl; [exists p; split; [left; reflexivity|split; [reflexivity|intros C; apply Po; rewrite C; reflexivity]]|].
    destruct (da_no_log a); not_in.
  - unfold flag_is. destruct (da_no_log a); split; auto; [intros _; destruct (da_out a); simpl; auto|discriminate|].
    destruct (da_out a); simpl; intros C; repeat (destruct C as [C | C]; [discriminate C|]); destruct C.
Qed.

(** Only possible runs are asked for *)
Lemma value_small gs l n : value_is reads_number gs l (Some n) -> small n.
Proof. intros (v & _ & ds & _ & _ & _ & _ & H). exact H. Qed.
Lemma small_literal n : (N.of_nat n < 1000)%N -> small n.
Proof. intros H. unfold small. eapply N.lt_trans; [exact H|reflexivity]. Qed.
Theorem asked_possible argv a : asks_for argv a -> possible a.
Proof.
  intros (gs & cgs & ps & rest & _ & _ & Ho & _ & _ & _ & M). split.
  - intros E. rewrite E in Ho. destruct Ho as (v & _ & _ & H). congruence.
  - destruct (da_command a) as [e|o b|n r|t n f|t u f fs]; simpl in M.
    + destruct M as (_ & _ & _ & _ & Hn & -> & Hp). split; [|split].
      * intros n E. rewrite E in Hn. eapply value_small; eauto.
      * apply Hp. left; reflexivity.
      * intros p H. apply Hp. right; exact H.
    + destruct M as (_ & _ & _ & _ & Hn & -> & Hp). split; [|split; [|split]].
      * intros n E. rewrite E in Hn. eapply value_small; eauto.
      * apply Hp. simpl; auto.
      * apply Hp. simpl; auto.
      * intros E. rewrite E in Hp. apply (Hp []); simpl; auto.
    + destruct M as ([H | [_ ->]] & _); [eapply value_small; eauto|]. apply small_literal. reflexivity.
    + destruct M as (_ & [H | [_ ->]] & _ & Hf); (split; [|exact Hf]); [eapply value_small; eauto|]. apply small_literal. reflexivity.
    + destruct M as (_ & _ & -> & Hp). split; [apply Hp; left; reflexivity|]. intros p H. apply Hp. right; exact H.
Qed.

(** ** Order *)

Lemma value_is_perm {A} (reads : str -> A -> Prop) gs gs' l o : Permutation gs gs' -> value_is reads gs l o -> value_is reads gs' l o.
Proof.
  intros P. destruct o; simpl.
  - intros (v & H & R). exists v. split; auto. eapply Permutation_in; eauto.
  - intros H v H'. eapply H. eapply Permutation_in; [apply Permutation_sym|]; eauto.
Qed.
Lemma value_or_perm {A} (reads : str -> A -> Prop) d gs gs' l a : Permutation gs gs' -> value_or reads d gs l a -> value_or reads d gs' l a.
Proof. intros P [H | [H E]]; [left|right; split; auto]; eapply value_is_perm; eauto. Qed.
Lemma flag_is_perm gs gs' l b : Permutation gs gs' -> flag_is gs l b -> flag_is gs' l b.
Proof.
  intros P H. unfold flag_is in *. rewrite H. split; apply Permutation_in; auto. apply Permutation_sym; auto.
Qed.
Lemma command_means_perm op gs gs' ps : Permutation gs gs' -> command_means op gs ps -> command_means op gs' ps.
Proof.
  intros P. pose proof (fun A r l o => @value_is_perm A r gs gs' l o P) as V. pose proof (fun A r d l a => @value_or_perm A r d gs gs' l a P) as W.
  pose proof (fun l b => flag_is_perm gs gs' l b P) as F.
  destruct op; simpl; intuition auto.
Qed.
Lemma order_irrelevant op argv argv' rest rest' gs gs' cgs cgs' ps a :
  writes_program program_options gs (command_name op) rest argv -> writes_program program_options gs' (command_name op) rest' argv' ->
  Permutation gs gs' ->
  writes_command (command_options op) cgs ps rest -> writes_command (command_options op) cgs' ps rest' ->
  Permutation cgs cgs' -> asks_for argv a -> asks_for argv' a.
Proof.
  intros W W' P Wc Wc' Pc (gs0 & cgs0 & ps0 & rest0 & W0 & ND & Ho & Hl & Wc0 & NDc & M).
  pose proof (program_complete _ _ program_agrees _ _ _ _ (command_name_plain _) W) as E1.
  pose proof (program_complete _ _ program_agrees _ _ _ _ (command_name_plain _) W0) as E2.
  rewrite E1 in E2. inversion E2 as [[Eg En Er]]; subst gs0 rest0; clear E1 E2.
  pose proof (command_options_name _ _ En) as EO. rewrite <- EO in Wc0.
  destruct (find_command_name op) as (ds & read & Ec). destruct (find_command_spec _ _ _ Ec) as (O & A & EO' & _).
  pose proof (EO' op eq_refl) as EOp. 
  rewrite EOp in Wc, Wc0.
  pose proof (command_complete _ _ A _ _ _ Wc) as E1. pose proof (command_complete _ _ A _ _ _ Wc0) as E2.
  rewrite E1 in E2. inversion E2; subst cgs0 ps0; clear E1 E2.
  exists gs', cgs', ps, rest'. rewrite <- En, <- EO. split; [exact W'|]. split; [|split; [|split; [|split; [exact Wc'|split]]]].
  - eapply Permutation_NoDup; [|exact ND]. apply Permutation_map, P.
  - eapply value_is_perm; eauto.
  - eapply flag_is_perm; eauto.
  - eapply Permutation_NoDup; [|exact NDc]. apply Permutation_map, Pc.
  - eapply command_means_perm; eauto.
Qed.

(** ** Options that a command does not know *)

Lemma unknown_stops ds a : is_option (token_of a) -> parse_option ds (token_of a) = None ->
  forall before after pending, ~ In [hyphen; hyphen] before -> parse_command_args ds pending (before ++ a :: after) = None.
Proof.
  intros Ia Ha before after. induction before as [|x r IH]; intros pending N; simpl.
  - destruct (token_of a) eqn:Et; simpl in *; try (destruct Ia; fail); rewrite Ha; destruct pending; reflexivity.
  - assert (Nr : ~ In [hyphen; hyphen] r) by (intros H; apply N; right; exact H).
    destruct (token_of x) as [|s|s|] eqn:Et; destruct pending as [id|]; auto.
    + exfalso. apply N. left. apply token_escape in Et. auto.
    + destruct (parse_option ds (TkLong s)) as [[gs p]|] eqn:Eo; simpl in Eo; rewrite Eo; auto. rewrite IH by exact Nr. reflexivity.
    + destruct (parse_option ds (TkShort s)) as [[gs p]|] eqn:Eo; simpl in Eo; rewrite Eo; auto. rewrite IH by exact Nr. reflexivity.
    + rewrite IH by exact Nr. reflexivity.
    + rewrite IH by exact Nr. reflexivity.
Qed.
Lemma unknown_option op gs argv before l after a :
  writes_program program_options gs (command_name op) (before ++ (hyphen :: hyphen :: l) :: after) argv ->
  ~ In [hyphen; hyphen] before -> l <> [] ->
  (forall n c b, command_options op n c b -> l <> n /\ forall v, l <> n ++ equals :: v) ->
  ~ asks_for argv a.
Proof.
  intros W Nb Nl U (gs0 & cgs0 & ps0 & rest0 & W0 & _ & _ & _ & Wc0 & _ & _).
  pose proof (program_complete _ _ program_agrees _ _ _ _ (command_name_plain _) W) as E1.
  pose proof (program_complete _ _ program_agrees _ _ _ _ (command_name_plain _) W0) as E2.
  rewrite E1 in E2. inversion E2 as [[Eg En Er]]; subst; clear E1 E2.
  pose proof (command_options_name _ _ En) as EO. rewrite <- EO in Wc0.
  destruct (find_command_name op) as (ds & read & Ec). destruct (find_command_spec _ _ _ Ec) as (O & A & EO' & _).
  rewrite (EO' op eq_refl) in Wc0, U.
  pose proof (command_complete _ _ A _ _ _ Wc0) as E. 
  assert (Et : token_of (hyphen :: hyphen :: l) = TkLong l) by (apply token_long; auto).
  rewrite unknown_stops in E; [discriminate| | |exact Nb]; rewrite Et; [exact I|]. simpl.
  destruct (parse_long_arg ds l) as [[g p]|] eqn:El; auto. exfalso.
  apply (parse_long_spec _ _ A l g p Nl) in El.
  destruct El as [(n & c & HO & E' & _) | [(n & c & v & HO & E' & _) | (n & c & HO & E' & _)]];
    apply U in HO as [H1 H2]; [|eapply H2; eauto|]; congruence.
Qed.

(** ** Command lines without options *)

Lemma plain_positional O ps : (forall p, In p ps -> plain_argument p) -> writes_command O [] ps ps.
Proof. induction ps as [|p ps IH]; intros H; constructor; [apply H; left; reflexivity|]. apply IH. intros q Hq. apply H. right; exact Hq. Qed.
Lemma no_options op ps : (forall p, In p ps -> plain_argument p) -> command_means op [] ps ->
  parse_args (command_name op :: ps) = Some (mk_dandy_args None false op).
Proof.
  intros Hp M. apply parse_args_spec. exists [], [], ps, ps. split; [constructor|]. split; [constructor|].
  split; [intros v []|]. split; [split; [discriminate|intros []]|]. split; [apply plain_positional, Hp|]. split; [constructor|exact M].
Qed.
