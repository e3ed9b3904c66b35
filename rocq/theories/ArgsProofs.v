(** * ArgsProofs: proofs about the command line *)
From Coq Require Import Ascii String List NArith Arith Bool Lia Permutation.
From Verif Require Import Base Spec TableSpec TableModel Messages MessageSpec ApiModel CliModel FileModel ArgsModel ArgsSpec.
Import ListNotations.
Close Scope string_scope.
Open Scope list_scope.

(** ** Tokens *)

Lemma token_value a : token_of a = TkValue <-> plain_argument a.
Proof.
  unfold plain_argument, hyphen. destruct a as [|c r]; simpl.
  - split; auto. intros _. right. intros r. discriminate.
  - destruct (N.eqb_spec c 45) as [-> | Hc].
    + destruct r as [|c' r']; [split; auto|].
      split; [|intros [E | E]; [discriminate|exfalso; eapply E; reflexivity]].
      destruct (N.eqb c' 45); [destruct r'|]; discriminate.
    + split; auto. intros _. right. intros r' E. inversion E; congruence.
Qed.
Lemma token_escape a : token_of a = TkEscape <-> a = [hyphen; hyphen].
Proof.
  unfold hyphen. destruct a as [|c r]; simpl; [split; discriminate|].
  destruct (N.eqb_spec c 45) as [-> | Hc]; [|split; [discriminate|intros E; inversion E; congruence]].
  destruct r as [|c' r']; [split; discriminate|].
  destruct (N.eqb_spec c' 45) as [-> | Hc']; [|split; [discriminate|intros E; inversion E; congruence]].
  destruct r'; split; auto; discriminate.
Qed.
Lemma token_long a s : token_of a = TkLong s <-> a = hyphen :: hyphen :: s /\ s <> [].
Proof.
  unfold hyphen. destruct a as [|c r]; simpl; [split; [discriminate|intros [E _]; discriminate]|].
  destruct (N.eqb_spec c 45) as [-> | Hc]; [|split; [discriminate|intros [E _]; inversion E; congruence]].
  destruct r as [|c' r']; [split; [discriminate|intros [E _]; discriminate]|].
  destruct (N.eqb_spec c' 45) as [-> | Hc']; [|split; [discriminate|intros [E _]; inversion E; congruence]].
  destruct r' as [|x r']; split.
  - discriminate.
  - intros [E N]. inversion E; subst; congruence.
  - intros E; inversion E; subst. split; [reflexivity|discriminate].
  - intros [E N]. inversion E; subst; reflexivity.
Qed.
Lemma token_short a s :
  token_of a = TkShort s <-> a = hyphen :: s /\ s <> [] /\ forall r, s <> hyphen :: r.
Proof.
  unfold hyphen. destruct a as [|c r]; simpl; [split; [discriminate|intros [E _]; discriminate]|].
  destruct (N.eqb_spec c 45) as [-> | Hc]; [|split; [discriminate|intros [E _]; inversion E; congruence]].
  destruct r as [|c' r']; [split; [discriminate|intros (E & N & _); inversion E; congruence]|].
  destruct (N.eqb_spec c' 45) as [-> | Hc'].
  - split; [destruct r'; discriminate|]. intros (E & _ & H). inversion E; subst. exfalso. eapply H; reflexivity.
  - split.
    + intros E; inversion E; subst. repeat split; try discriminate. intros r E'. inversion E'; congruence.
    + intros (E & _). inversion E; reflexivity.
Qed.

(** ** Options *)

Definition agrees (ds : list arg_decl) (O : options) : Prop :=
  (forall l c b, O l c b <-> In (mk_arg_decl l c b) ds) /\
  NoDup (map ad_long ds) /\
  (forall d1 d2 c, In d1 ds -> In d2 ds -> ad_short d1 = Some c -> ad_short d2 = Some c -> d1 = d2) /\
  (forall d, In d ds -> ad_long d <> [] /\ ~ In equals (ad_long d)) /\
  (forall d, In d ds -> ad_short d <> Some hyphen).

Section Agree.
Context (ds : list arg_decl) (O : options) (A : agrees ds O).

Lemma long_unique d1 d2 : In d1 ds -> In d2 ds -> ad_long d1 = ad_long d2 -> d1 = d2.
Proof.
  destruct A as (_ & ND & _). clear A. induction ds as [|d l IH]; simpl in *; [tauto|].
  inversion ND as [|x y Hn Hnd]; subst. intros [H1 | H1] [H2 | H2] E; subst; auto.
  - exfalso. apply Hn. rewrite E. apply in_map, H2.
  - exfalso. apply Hn. rewrite <- E. apply in_map, H1.
Qed.
Lemma find_long_spec l d : find_long ds l = Some d <-> In d ds /\ ad_long d = l.
Proof.
  unfold find_long. split.
  - intros E. apply find_some in E as [H E]. split; auto. destruct (eqb_spec (ad_long d) l); congruence.
  - intros [H <-]. destruct (find _ ds) as [d'|] eqn:E.
    + apply find_some in E as [H' E]. destruct (eqb_spec (ad_long d') (ad_long d)); [|discriminate].
      f_equal. apply long_unique; auto.
    + exfalso. apply (find_none _ _ E) in H. destruct (eqb_spec (ad_long d) (ad_long d)); congruence.
Qed.
Lemma find_short_spec c d : find_short ds c = Some d <-> In d ds /\ ad_short d = Some c.
Proof.
  unfold find_short. split.
  - intros E. apply find_some in E as [H E]. split; auto. destruct (ad_short d); [|discriminate].
    destruct (N.eqb_spec n c); congruence.
  - intros [H Hs]. destruct (find _ ds) as [d'|] eqn:E.
    + apply find_some in E as [H' E]. destruct (ad_short d') eqn:Es; [|discriminate].
      destruct (N.eqb_spec n c); [|discriminate]. subst n.
      f_equal. destruct A as (_ & _ & U & _). eapply U; eauto.
    + exfalso. apply (find_none _ _ E) in H. rewrite Hs in H. rewrite N.eqb_refl in H. discriminate.
Qed.
Lemma O_decl l c b : O l c b <-> In (mk_arg_decl l c b) ds. Proof. apply A. Qed.
Lemma decl_O d : In d ds -> O (ad_long d) (ad_short d) (ad_takes d).
Proof. intros H. apply O_decl. destruct d; auto. Qed.
Lemma long_name d : In d ds -> ad_long d <> [] /\ ~ In equals (ad_long d). Proof. apply A. Qed.

Lemma split_spec s n v : split_equals s = (n, v) <->
  ~ In equals n /\ s = n ++ match v with Some v => equals :: v | None => [] end.
Proof.
  unfold equals. revert n v. induction s as [|c r IH]; simpl; intros n v.
  - split.
    + intros E; inversion E; subst. auto.
    + intros [_ E]. destruct n; [|discriminate]. destruct v; [discriminate|]. reflexivity.
  - destruct (N.eqb_spec c 61) as [-> | Hc].
    + split.
      * intros E; inversion E; subst. auto.
      * intros [Hn E]. destruct n as [|x n].
        -- destruct v; inversion E; reflexivity.
        -- inversion E; subst. exfalso. apply Hn. left; reflexivity.
    + destruct (split_equals r) as [n' v'] eqn:Er. split.
      * intros E; inversion E; subst.
        destruct (proj1 (IH n' v) eq_refl) as [Hn Hr]. subst r. split; auto. intros [H | H]; auto.
      * intros [Hn E]. destruct n as [|x n]; [destruct v; inversion E; congruence|].
        inversion E; subst. assert (E' : (n', v') = (n, v)).
        { apply IH. split; auto. intros H. apply Hn. right; exact H. }
        inversion E'; reflexivity.
Qed.

(** Long options *)
Lemma parse_long_spec s gs p : s <> [] -> (parse_long_arg ds s = Some (gs, p) <->
  (exists l c, O l c false /\ s = l /\ gs = [(l, None)] /\ p = None) \/
  (exists l c v, O l c true /\ s = l ++ equals :: v /\ gs = [(l, Some v)] /\ p = None) \/
  (exists l c, O l c true /\ s = l /\ gs = [] /\ p = Some l)).
Proof.
  intros Ns. unfold parse_long_arg. destruct (split_equals s) as [n v] eqn:Es.
  pose proof (proj1 (split_spec _ _ _) Es) as [Hn Hs]. split.
  - destruct (find_long ds n) as [d|] eqn:Ed; [|discriminate].
    apply find_long_spec in Ed as [Hd <-]. pose proof (decl_O d Hd) as Hd'.
    destruct (ad_takes d), v as [v|]; try discriminate; intros E; inversion E; subst; clear E.
    + right. left. exists (ad_long d), (ad_short d), v. auto.
    + right. right. exists (ad_long d), (ad_short d). rewrite app_nil_r. auto.
    + left. exists (ad_long d), (ad_short d). rewrite app_nil_r. auto.
  - assert (Hl : forall l c b v', O l c b -> s = l ++ match v' with Some v => equals :: v | None => [] end ->
                 n = l /\ v = v' /\ find_long ds l = Some (mk_arg_decl l c b)).
    { intros l c b v' HO E. apply O_decl in HO. pose proof (long_name _ HO) as [_ Hne]. simpl in Hne.
      assert (E' : split_equals s = (l, v')) by (apply split_spec; auto).
      rewrite Es in E'. inversion E'; subst n v. repeat split. apply find_long_spec. auto. }
    intros [(l & c & HO & E & -> & ->) | [(l & c & v' & HO & E & -> & ->) | (l & c & HO & E & -> & ->)]].
    + destruct (Hl l c false None HO) as (-> & -> & ->); [rewrite app_nil_r; exact E|reflexivity].
    + destruct (Hl l c true (Some v') HO) as (-> & -> & ->); [exact E|reflexivity].
    + destruct (Hl l c true None HO) as (-> & -> & ->); [rewrite app_nil_r; exact E|reflexivity].
Qed.

(** Short options *)
Lemma parse_short_spec s gs p : parse_short_arg ds s = Some (gs, p) <->
  (letters O gs s /\ p = None) \/
  (exists gs' s' l c v, letters O gs' s' /\ O l (Some c) true /\ gs = gs' ++ [(l, Some v)] /\ p = None /\
     (s = s' ++ c :: equals :: v \/ s = s' ++ c :: v /\ v <> [] /\ forall r, v <> equals :: r)) \/
  (exists s' l c, letters O gs s' /\ O l (Some c) true /\ s = s' ++ [c] /\ p = Some l).
Proof.
  revert gs p. induction s as [|c r IH]; intros gs p.
  - simpl. split.
    + intros E; inversion E; subst. left. split; [constructor|reflexivity].
    + intros [[L ->] | [(gs' & s' & l & c & v & _ & _ & _ & _ & E) | (s' & l & c & _ & _ & E & _)]].
      * inversion L; reflexivity.
      * destruct E as [E | [E _]]; destruct s'; discriminate.
      * destruct s'; discriminate.
  - simpl. destruct (find_short ds c) as [d|] eqn:Ed.
    + pose proof (proj1 (find_short_spec _ _) Ed) as [Hd Hs]. pose proof (decl_O d Hd) as Hd'. rewrite Hs in Hd'.
      assert (U : forall l b, O l (Some c) b -> l = ad_long d /\ b = ad_takes d).
      { intros l b H. apply O_decl in H.
        assert (E : Some (mk_arg_decl l (Some c) b) = Some d) by (rewrite <- Ed; symmetry; apply find_short_spec; auto).
        inversion E; subst; auto. }
      destruct (ad_takes d) eqn:Et.
      * split.
        -- intros E. destruct r as [|c' v].
           ++ inversion E; subst. right. right. exists [], (ad_long d), c. repeat split; auto. constructor.
           ++ right. left. destruct (N.eqb_spec c' 61) as [-> | Hc]; inversion E; subst.
              ** exists [], [], (ad_long d), c, v. repeat split; auto. constructor.
              ** exists [], [], (ad_long d), c, (c' :: v). repeat split; auto; [constructor|].
                 right. repeat split; try discriminate. intros r E'. inversion E'. unfold equals in *. congruence.
        -- intros [[L ->] | [(gs' & s' & l & c' & v & L & HO & -> & -> & E) | (s' & l & c' & L & HO & E & ->)]].
           ++ inversion L as [|l c' gs' s' HO L']; subst. apply U in HO as [_ HO]. discriminate.
           ++ assert (s' = []) as ->.
              { destruct s' as [|x s']; auto. inversion L as [|l' c'' gs'' s'' HO' L']; subst.
                assert (x = c) as -> by (destruct E as [E | [E _]]; inversion E; reflexivity).
                apply U in HO' as [_ HO']. discriminate. }
              inversion L; subst. simpl in *. destruct E as [E | (E & N & Ne)]; inversion E; subst; clear E.
              ** apply U in HO as [-> _]. reflexivity.
              ** apply U in HO as [-> _]. destruct v as [|x v]; [congruence|].
                 destruct (N.eqb_spec x 61) as [-> | Hx]; [exfalso; eapply Ne; reflexivity|]. reflexivity.
           ++ assert (s' = []) as ->.
              { destruct s' as [|x s']; auto. inversion L as [|l' c'' gs'' s'' HO' L']; subst.
                inversion E; subst. apply U in HO' as [_ HO']. discriminate. }
              inversion L; subst. simpl in E. inversion E; subst. apply U in HO as [-> _]. reflexivity.
      * split.
        -- intros E. destruct (parse_short_arg ds r) as [[gs' p']|] eqn:Er; [|discriminate].
           inversion E; subst; clear E. clear Er. pose proof (proj1 (IH _ _) eq_refl) as Er.
           destruct Er as [[L ->] | [(gs1 & s' & l & c' & v & L & HO & -> & -> & E) | (s' & l & c' & L & HO & -> & ->)]].
           ++ left. split; auto. constructor; auto.
           ++ right. left. exists ((ad_long d, None) :: gs1), (c :: s'), l, c', v.
              repeat split; auto; [constructor; auto|]. destruct E as [-> | (-> & N & Ne)]; [left|right]; auto.
           ++ right. right. exists (c :: s'), l, c'. repeat split; auto. constructor; auto.
        -- intros H.
           assert (Hr : exists gs', gs = (ad_long d, None) :: gs' /\ parse_short_arg ds r = Some (gs', p)).
           { destruct H as [[L ->] | [(gs1 & s' & l & c' & v & L & HO & -> & -> & E) | (s' & l & c' & L & HO & E & ->)]].
             - inversion L as [|l c' gs' s' HO L']; subst. apply U in HO as [-> _].
               exists gs'. split; auto. apply IH. left; auto.
             - destruct s' as [|x s'].
               + inversion L; subst. assert (c' = c) as -> by (destruct E as [E | [E _]]; inversion E; reflexivity).
                 apply U in HO as [_ HO]. discriminate.
               + assert (x = c) as -> by (destruct E as [E | [E _]]; inversion E; reflexivity).
                 inversion L as [|l' c'' gs'' s'' HO' L']; subst. apply U in HO' as [-> _].
                 exists (gs'' ++ [(l, Some v)]). split; auto. apply IH. right. left.
                 exists gs'', s', l, c', v. repeat split; auto.
                 destruct E as [E | (E & N & Ne)]; inversion E; subst; [left|right]; auto.
             - destruct s' as [|x s']; inversion E; subst.
               + apply U in HO as [_ HO]. discriminate.
               + inversion L as [|l' c'' gs'' s'' HO' L']; subst. apply U in HO' as [-> _].
                 exists gs''. split; auto. apply IH. right. right. exists s', l, c'. auto. }
           destruct Hr as (gs' & -> & ->). reflexivity.
    + split; [discriminate|].
      assert (U : forall l b, ~ O l (Some c) b).
      { intros l b H. apply O_decl in H.
        assert (E : find_short ds c = Some (mk_arg_decl l (Some c) b)) by (apply find_short_spec; auto). congruence. }
      intros [[L ->] | [(gs1 & s' & l & c' & v & L & HO & -> & -> & E) | (s' & l & c' & L & HO & E & ->)]]; exfalso.
      * inversion L; subst. eapply U; eauto.
      * destruct s' as [|x s'].
        -- assert (c' = c) as -> by (destruct E as [E | [E _]]; inversion E; reflexivity). eapply U; eauto.
        -- assert (x = c) as -> by (destruct E as [E | [E _]]; inversion E; reflexivity).
           inversion L; subst. eapply U; eauto.
      * destruct s' as [|x s']; inversion E; subst; [eapply U; eauto|]. inversion L; subst. eapply U; eauto.
Qed.

(** All options *)
Definition is_option (t : arg_token) : Prop := match t with TkLong _ | TkShort _ => True | _ => False end.

Lemma letters_start gs s r : letters O gs s -> s <> hyphen :: r.
Proof.
  intros L E. inversion L as [|l c gs' s' HO L' E1 E2]; subst; [discriminate|]. inversion E2; subst.
  apply O_decl in HO. destruct A as (_ & _ & _ & _ & Hh). apply Hh in HO. simpl in HO. congruence.
Qed.
Lemma letters_then gs s l c b x r : letters O gs s -> O l (Some c) b -> s ++ c :: x <> hyphen :: r.
Proof.
  intros L HO E. destruct s as [|y s].
  - simpl in E. inversion E; subst. apply O_decl in HO. destruct A as (_ & _ & _ & _ & Hh). apply Hh in HO.
    simpl in HO. congruence.
  - simpl in E. inversion E; subst. eapply (letters_start _ _ s L). reflexivity.
Qed.

Lemma option_complete gs args : writes_option O gs args ->
  (exists a, args = [a] /\ is_option (token_of a) /\ parse_option ds (token_of a) = Some (gs, None)) \/
  (exists a v gs' l, args = [a; v] /\ plain_argument v /\ is_option (token_of a) /\
     parse_option ds (token_of a) = Some (gs', Some l) /\ gs = gs' ++ [(l, Some v)]).
Proof.
  intros W. inversion W as [l c HO E1 E2 | l c v HO E1 E2 | l c v HO Hv E1 E2 | gs' s L N E1 E2 | gs' s l c v L HO N Ne E1 E2
    | gs' s l c v L HO E1 E2 | gs' s l c v L HO Hv E1 E2]; subst; clear W.
  - left. exists (hyphen :: hyphen :: l). split; auto. pose proof (long_name _ (proj1 (O_decl _ _ _) HO)) as [Hl _]. simpl in Hl.
    rewrite (proj2 (token_long (hyphen :: hyphen :: l) l)) by auto. split; [exact I|].
    apply parse_long_spec; auto. left. exists l, c. auto.
  - left. exists (hyphen :: hyphen :: l ++ equals :: v). split; auto.
    assert (Hl : l ++ equals :: v <> []) by (destruct l; discriminate).
    rewrite (proj2 (token_long (hyphen :: hyphen :: l ++ equals :: v) (l ++ equals :: v))) by auto. split; [exact I|].
    apply parse_long_spec; auto. right. left. exists l, c, v. auto.
  - right. exists (hyphen :: hyphen :: l), v, [], l. repeat split; auto;
      pose proof (long_name _ (proj1 (O_decl _ _ _) HO)) as [Hl _]; simpl in Hl;
      rewrite (proj2 (token_long (hyphen :: hyphen :: l) l)) by auto; [exact I|].
    apply parse_long_spec; auto. right. right. exists l, c. auto.
  - left. exists (hyphen :: s). split; auto.
    rewrite (proj2 (token_short (hyphen :: s) s)) by (repeat split; auto; intros r; eapply letters_start; eauto).
    split; [exact I|]. apply parse_short_spec. left; auto.
  - left. exists (hyphen :: s ++ c :: v). split; auto.
    rewrite (proj2 (token_short (hyphen :: s ++ c :: v) (s ++ c :: v)))
      by (repeat split; [destruct s; discriminate|intros r; eapply letters_then; eauto]).
    split; [exact I|]. apply parse_short_spec. right. left. exists gs', s, l, c, v. auto 8.
  - left. exists (hyphen :: s ++ c :: equals :: v). split; auto.
    rewrite (proj2 (token_short (hyphen :: s ++ c :: equals :: v) (s ++ c :: equals :: v)))
      by (repeat split; [destruct s; discriminate|intros r; eapply letters_then; eauto]).
    split; [exact I|]. apply parse_short_spec. right. left. exists gs', s, l, c, v. auto 8.
  - right. exists (hyphen :: s ++ [c]), v, gs', l. repeat split; auto;
      rewrite (proj2 (token_short (hyphen :: s ++ [c]) (s ++ [c])))
        by (repeat split; [destruct s; discriminate|intros r; eapply letters_then; eauto]); [exact I|].
    apply parse_short_spec. right. right. exists s, l, c. auto.
Qed.
Lemma option_sound a gs p : parse_option ds (token_of a) = Some (gs, p) ->
  match p with
  | None => writes_option O gs [a]
  | Some l => forall v, plain_argument v -> writes_option O (gs ++ [(l, Some v)]) [a; v]
  end.
Proof.
  destruct (token_of a) as [|s|s|] eqn:Et; simpl; try discriminate.
  - apply token_long in Et as [-> N]. intros E. apply (parse_long_spec s gs p N) in E.
    destruct E as [(l & c & HO & -> & -> & ->) | [(l & c & v & HO & -> & -> & ->) | (l & c & HO & -> & -> & ->)]].
    + eapply long_flag; eauto.
    + eapply long_equals; eauto.
    + intros v Hv. simpl. eapply long_next; eauto.
  - apply token_short in Et as (-> & N & _). intros E. apply parse_short_spec in E.
    destruct E as [[L ->] | [(gs1 & s' & l & c' & v & L & HO & -> & -> & E) | (s' & l & c' & L & HO & -> & ->)]].
    + apply short_flags; auto.
    + destruct E as [-> | (-> & N' & Ne)]; [eapply short_equals|eapply short_attached]; eauto.
    + intros v Hv. eapply short_next; eauto.
Qed.

Lemma command_sound argv : forall pending gs ps, parse_command_args ds pending argv = Some (gs, ps) ->
  match pending with
  | None => writes_command O gs ps argv
  | Some id => exists v rest gs', argv = v :: rest /\ plain_argument v /\ gs = (id, Some v) :: gs' /\ writes_command O gs' ps rest
  end.
Proof.
  induction argv as [|a rest IH]; intros pending gs ps; simpl.
  - destruct pending; [discriminate|]. intros E; inversion E; subst. constructor.
  - destruct (token_of a) as [|s|s|] eqn:Et; destruct pending as [id|]; try discriminate.
    + intros E; inversion E; subst. apply token_escape in Et as ->. constructor.
    + destruct (parse_option ds (TkLong s)) as [[gs1 p]|] eqn:Eo; simpl in Eo; rewrite Eo; [|discriminate].
      destruct (parse_command_args ds p rest) as [[gs2 ps2]|] eqn:Er; simpl; [|discriminate].
      intros E; inversion E; subst; clear E. apply IH in Er.
      pose proof (option_sound a gs1 p) as Hs. rewrite Et in Hs. specialize (Hs Eo). destruct p as [l|].
      * destruct Er as (v & rest' & gs' & -> & Hv & -> & W).
        change (a :: v :: rest') with ([a; v] ++ rest').
        change (gs1 ++ (l, Some v) :: gs') with (gs1 ++ [(l, Some v)] ++ gs'). rewrite app_assoc.
        constructor; auto.
      * change (a :: rest) with ([a] ++ rest). constructor; auto.
    + destruct (parse_option ds (TkShort s)) as [[gs1 p]|] eqn:Eo; simpl in Eo; rewrite Eo; [|discriminate].
      destruct (parse_command_args ds p rest) as [[gs2 ps2]|] eqn:Er; simpl; [|discriminate].
      intros E; inversion E; subst; clear E. apply IH in Er.
      pose proof (option_sound a gs1 p) as Hs. rewrite Et in Hs. specialize (Hs Eo). destruct p as [l|].
      * destruct Er as (v & rest' & gs' & -> & Hv & -> & W).
        change (a :: v :: rest') with ([a; v] ++ rest').
        change (gs1 ++ (l, Some v) :: gs') with (gs1 ++ [(l, Some v)] ++ gs'). rewrite app_assoc.
        constructor; auto.
      * change (a :: rest) with ([a] ++ rest). constructor; auto.
    + destruct (parse_command_args ds None rest) as [[gs2 ps2]|] eqn:Er; simpl; [|discriminate].
      intros E; inversion E; subst; clear E. apply IH in Er. apply token_value in Et. eauto 8.
    + destruct (parse_command_args ds None rest) as [[gs2 ps2]|] eqn:Er; simpl; [|discriminate].
      intros E; inversion E; subst; clear E. apply IH in Er. apply token_value in Et. constructor; auto.
Qed.

Lemma step_option a rest : is_option (token_of a) ->
  parse_command_args ds None (a :: rest) =
    match parse_option ds (token_of a) with None => None | Some (gs, p) => add_given gs (parse_command_args ds p rest) end /\
  parse_program_args ds None (a :: rest) =
    match parse_option ds (token_of a) with None => None | Some (gs, p) => add_given gs (parse_program_args ds p rest) end.
Proof. simpl. destruct (token_of a); simpl; intros []; auto. Qed.
Lemma step_pending a id rest : plain_argument a ->
  parse_command_args ds (Some id) (a :: rest) = add_given [(id, Some a)] (parse_command_args ds None rest) /\
  parse_program_args ds (Some id) (a :: rest) = add_given [(id, Some a)] (parse_program_args ds None rest).
Proof. intros H. apply token_value in H. simpl. rewrite H. auto. Qed.

Lemma command_complete gs ps argv : writes_command O gs ps argv -> parse_command_args ds None argv = Some (gs, ps).
Proof.
  intros W. induction W as [|gs args gs' ps argv Ho W IH|p gs ps argv Hp W IH|ps].
  - reflexivity.
  - apply option_complete in Ho as [(a & -> & Ia & Ha) | (a & v & gs1 & l & -> & Hv & Ia & Ha & ->)]; simpl app.
    + rewrite (proj1 (step_option a argv Ia)), Ha, IH. reflexivity.
    + rewrite (proj1 (step_option a (v :: argv) Ia)), Ha, (proj1 (step_pending v l argv Hv)), IH. simpl.
      rewrite <- app_assoc. reflexivity.
  - apply token_value in Hp. simpl. rewrite Hp, IH. reflexivity.
  - reflexivity.
Qed.

Lemma program_sound argv : forall pending gs rest, parse_program_args ds pending argv = Some (gs, rest) ->
  exists name rest', rest = name :: rest' /\ plain_argument name /\
  match pending with
  | None => writes_program O gs name rest' argv
  | Some id => exists v argv' gs', argv = v :: argv' /\ plain_argument v /\ gs = (id, Some v) :: gs' /\ writes_program O gs' name rest' argv'
  end.
Proof.
  induction argv as [|a rest IH]; intros pending gs rest'; simpl; [discriminate|].
  destruct (token_of a) as [|s|s|] eqn:Et; destruct pending as [id|]; try discriminate.
  - destruct (parse_option ds (TkLong s)) as [[gs1 p]|] eqn:Eo; simpl in Eo; rewrite Eo; [|discriminate].
    destruct (parse_program_args ds p rest) as [[gs2 ps2]|] eqn:Er; simpl; [|discriminate].
    intros E; inversion E; subst; clear E. apply IH in Er as (name & rest'' & -> & Hn & Er).
    exists name, rest''. split; [reflexivity|]. split; [exact Hn|].
    pose proof (option_sound a gs1 p) as Hs. rewrite Et in Hs. specialize (Hs Eo). destruct p as [l|].
    + destruct Er as (v & rest' & gs' & -> & Hv & -> & W).
      change (a :: v :: rest') with ([a; v] ++ rest').
      change (gs1 ++ (l, Some v) :: gs') with (gs1 ++ [(l, Some v)] ++ gs'). rewrite app_assoc.
      constructor; auto.
    + change (a :: rest) with ([a] ++ rest). constructor; auto.
  - destruct (parse_option ds (TkShort s)) as [[gs1 p]|] eqn:Eo; simpl in Eo; rewrite Eo; [|discriminate].
    destruct (parse_program_args ds p rest) as [[gs2 ps2]|] eqn:Er; simpl; [|discriminate].
    intros E; inversion E; subst; clear E. apply IH in Er as (name & rest'' & -> & Hn & Er).
    exists name, rest''. split; [reflexivity|]. split; [exact Hn|].
    pose proof (option_sound a gs1 p) as Hs. rewrite Et in Hs. specialize (Hs Eo). destruct p as [l|].
    + destruct Er as (v & rest' & gs' & -> & Hv & -> & W).
      change (a :: v :: rest') with ([a; v] ++ rest').
      change (gs1 ++ (l, Some v) :: gs') with (gs1 ++ [(l, Some v)] ++ gs'). rewrite app_assoc.
      constructor; auto.
    + change (a :: rest) with ([a] ++ rest). constructor; auto.
  - destruct (parse_program_args ds None rest) as [[gs2 ps2]|] eqn:Er; simpl; [|discriminate].
    intros E; inversion E; subst; clear E. apply IH in Er as (name & rest'' & -> & Hn & Er).
    apply token_value in Et. exists name, rest''. split; [reflexivity|]. split; [exact Hn|]. eauto 8.
  - intros E; inversion E; subst. apply token_value in Et. exists a, rest. split; [reflexivity|]. split; [exact Et|]. constructor.
Qed.
Lemma program_complete gs name rest argv : plain_argument name -> writes_program O gs name rest argv ->
  parse_program_args ds None argv = Some (gs, name :: rest).
Proof.
  intros Hn W. induction W as [name rest|gs args gs' name rest argv Ho W IH].
  - apply token_value in Hn. simpl. rewrite Hn. reflexivity.
  - apply option_complete in Ho as [(a & -> & Ia & Ha) | (a & v & gs1 & l & -> & Hv & Ia & Ha & ->)]; simpl app.
    + rewrite (proj2 (step_option a argv Ia)), Ha, IH by assumption. reflexivity.
    + rewrite (proj2 (step_option a (v :: argv) Ia)), Ha, (proj2 (step_pending v l argv Hv)), IH by assumption. simpl.
      rewrite <- app_assoc. reflexivity.
Qed.

(** Which options take values *)
Lemma letters_known gs s l v : letters O gs s -> In (l, v) gs -> v = None /\ exists c, O l c false.
Proof.
  induction 1 as [|l' c gs s HO L IH]; simpl; [tauto|]. intros [E | H]; auto. inversion E; subst. eauto.
Qed.
Lemma option_known gs args l v : writes_option O gs args -> In (l, v) gs ->
  exists c, O l c (match v with Some _ => true | None => false end).
Proof.
  intros W H. destruct W as [l' c HO | l' c v' HO | l' c v' HO Hv | gs' s L N | gs' s l' c v' L HO N Ne
    | gs' s l' c v' L HO | gs' s l' c v' L HO Hv]; simpl in H;
    try (destruct H as [E | []]; inversion E; subst; eauto);
    try (apply in_app_iff in H as [H | [E | []]]; [|inversion E; subst; eauto]);
    eapply letters_known in H as [-> Hc]; eauto.
Qed.
Lemma command_known gs ps argv l v : writes_command O gs ps argv -> In (l, v) gs ->
  exists c, O l c (match v with Some _ => true | None => false end).
Proof.
  intros W H. induction W as [|gs args gs' ps argv Ho W IH|p gs ps argv Hp W IH|ps]; try (destruct H; fail); auto.
  apply in_app_iff in H as [H | H]; auto. eapply option_known; eauto.
Qed.
Lemma program_known gs name rest argv l v : writes_program O gs name rest argv -> In (l, v) gs ->
  exists c, O l c (match v with Some _ => true | None => false end).
Proof.
  intros W H. induction W as [name rest|gs args gs' name rest argv Ho W IH]; [destruct H|].
  apply in_app_iff in H as [H | H]; auto. eapply option_known; eauto.
Qed.
Lemma takes_unique l c c' b b' : O l c b -> O l c' b' -> b = b'.
Proof.
  intros H H'. apply O_decl in H, H'. assert (E : mk_arg_decl l c b = mk_arg_decl l c' b') by (apply long_unique; auto).
  inversion E; reflexivity.
Qed.
End Agree.

(** ** Values *)

Lemma repeated_spec gs : repeated gs = false <-> NoDup (map fst gs).
Proof.
  induction gs as [|[l v] r IH]; simpl; [split; auto; constructor|].
  rewrite orb_false_iff, IH. split.
  - intros [E H]. constructor; auto. intros Hin. apply in_map_iff in Hin as ([l' v'] & El & Hin). simpl in El; subst l'.
    apply not_true_iff_false in E. apply E. apply existsb_exists. exists (l, v'). split; auto. change (eqb l l = true).
    destruct (eqb_spec l l); congruence.
  - intros H. inversion H as [|x y Hn Hr]; subst. split; auto.
    apply not_true_iff_false. intros E. apply existsb_exists in E as ([l' v'] & Hin & E). change (eqb l' l = true) in E.
    destruct (eqb_spec l' l); [|discriminate]. subst. apply Hn. apply in_map_iff. exists (l, v'). auto.
Qed.
Lemma given_value_none gs l : given_value gs l = None <-> forall v, ~ In (l, v) gs.
Proof.
  unfold given_value. match goal with |- context [find ?f gs] => destruct (find f gs) as [[l' v']|] eqn:E end; simpl; split; try discriminate; auto.
  - intros H. exfalso. apply find_some in E as [Hin E]. change (eqb l' l = true) in E. destruct (eqb_spec l' l); [|discriminate]. subst. eapply H; eauto.
  - intros _ v Hin. apply (find_none _ _ E) in Hin. change (eqb l l = false) in Hin. destruct (eqb_spec l l); congruence.
Qed.
Lemma given_value_some gs l v : NoDup (map fst gs) -> (given_value gs l = Some v <-> In (l, v) gs).
Proof.
  intros ND. unfold given_value. split.
  - match goal with |- context [find ?f gs] => destruct (find f gs) as [[l' v']|] eqn:E end; simpl; [|discriminate].
    apply find_some in E as [Hin E]. change (eqb l' l = true) in E. destruct (eqb_spec l' l); [|discriminate]. intros Ev; inversion Ev; subst. exact Hin.
  - induction gs as [|[l' v'] r IH]; [intros []|]. inversion ND as [|x y Hn Hr]; subst. cbn [find fst].
    intros [E | H].
    + inversion E; subst. destruct (eqb_spec l l); [reflexivity|congruence].
    + destruct (eqb_spec l' l) as [-> | Hne]; [|apply IH; auto].
      exfalso. apply Hn. apply in_map_iff. exists (l, v). auto.
Qed.

Lemma parse_type_spec v t : parse_type v = Some t <-> reads_type v t.
Proof.
  unfold parse_type, reads_type.
  destruct (eqb_spec v (of_string "dfa")) as [-> | H1]; [split; [intros E; inversion E; reflexivity|destruct t; auto; discriminate]|].
  destruct (eqb_spec v (of_string "nfa")) as [-> | H2]; [split; [intros E; inversion E; reflexivity|destruct t; auto; discriminate]|].
  destruct (eqb_spec v (of_string "regex")) as [-> | H3]; [split; [intros E; inversion E; reflexivity|destruct t; auto; discriminate]|].
  split; [discriminate|]. destruct t; intros; congruence.
Qed.
Lemma parse_test_type_spec v t : parse_test_type v = Some t <-> reads_test_type v t.
Proof.
  unfold parse_test_type, reads_test_type.
  destruct (eqb_spec v (of_string "lines")) as [-> | H1]; [split; [intros E; inversion E; reflexivity|destruct t; auto; discriminate]|].
  destruct (eqb_spec v (of_string "files")) as [-> | H2]; [split; [intros E; inversion E; reflexivity|destruct t; auto; discriminate]|].
  split; [discriminate|]. destruct t; intros; congruence.
Qed.
Lemma parse_path_spec v p : parse_path v = Some p <-> reads_path v p.
Proof.
  unfold parse_path, reads_path. destruct v; split; try discriminate.
  - intros [<- H]. congruence.
  - intros E; inversion E; subst. split; [reflexivity|discriminate].
  - intros [<- _]. reflexivity.
Qed.
Lemma parse_paths_spec vs ps : parse_paths vs = Some ps <-> vs = ps /\ forall p, In p ps -> p <> [].
Proof.
  revert ps. induction vs as [|v r IH]; intros ps; simpl.
  - split; [intros E; inversion E; subst; split; auto; intros p []|intros [<- _]; reflexivity].
  - destruct v as [|c v]; simpl.
    + split; [discriminate|]. intros [<- H]. exfalso. apply (H []); simpl; auto.
    + destruct (parse_paths r) as [ps'|] eqn:E; simpl.
      * destruct (proj1 (IH ps') eq_refl) as [-> Hp]. split.
        -- intros E'; inversion E'; subst. split; auto. intros p [<- | H]; [discriminate|auto].
        -- intros [<- _]. reflexivity.
      * split; [discriminate|]. intros [<- H]. assert (E' : None = Some r); [|discriminate].
        apply IH. split; auto. intros p Hp. apply H. right; auto.
Qed.

Lemma fold_digits_mono v : forall acc, (acc <= fold_left (fun n c => n * 10 + (c - 48)) v acc)%N.
Proof. induction v as [|c r IH]; intros acc; simpl; [lia|]. etransitivity; [|apply IH]. lia. Qed.
Lemma parse_digits_spec v : forall acc m, (acc < 2 ^ 64)%N ->
  (parse_digits acc v = Some m <->
   Forall (fun c => 48 <= c <= 57)%N v /\ fold_left (fun n c => n * 10 + (c - 48))%N v acc = m /\ (m < 2 ^ 64)%N).
Proof.
  induction v as [|c r IH]; intros acc m Hacc; cbn [parse_digits fold_left].
  - split; [intros E; inversion E; subst; auto|intros (_ & -> & _); reflexivity].
  - destruct (N.leb_spec 48 c) as [H1 | H1]; destruct (N.leb_spec c 57) as [H2 | H2]; cbn [andb];
      try (split; [discriminate|]; intros (F & _); inversion F; subst; lia).
    destruct (N.ltb_spec (acc * 10 + (c - 48)) (2 ^ 64)) as [H | H].
    + rewrite IH by exact H. split; intros (F & E & L); repeat split; auto; inversion F; auto.
    + split; [discriminate|]. intros (F & E & L). pose proof (fold_digits_mono r (acc * 10 + (c - 48))%N) as M. rewrite E in M. 
      exfalso. apply (N.lt_irrefl (2 ^ 64)%N). eapply N.le_lt_trans; [exact H|]. eapply N.le_lt_trans; eassumption.
Qed.
Lemma parse_usize_spec v n : parse_usize v = Some n <-> reads_number v n.
Proof.
  assert (D : forall ds, ds <> [] -> (option_map N.to_nat (parse_digits 0 ds) = Some n <->
    Forall (fun c => 48 <= c <= 57)%N ds /\ digits_value ds = N.of_nat n /\ (N.of_nat n < 2 ^ 64)%N)).
  { intros ds Nd. unfold digits_value. destruct (parse_digits 0 ds) as [m|] eqn:E; cbn [option_map].
    - apply parse_digits_spec in E as (F & E & L); [|reflexivity]. split.
      + intros Em. inversion Em; subst n. rewrite N2Nat.id. auto.
      + intros (_ & E' & _). rewrite E in E'. subst m. rewrite E', Nat2N.id. reflexivity.
    - split; [discriminate|]. intros H. exfalso.
      assert (E' : parse_digits 0 ds = Some (N.of_nat n)) by (apply parse_digits_spec; [reflexivity|exact H]). congruence. }
  unfold parse_usize, reads_number. destruct v as [|c r].
  - split; [discriminate|]. intros (ds & [<- | E] & N & _); [congruence|discriminate].
  - destruct (N.eqb_spec c 43) as [-> | Hc].
    + destruct r as [|c' r'].
      * split; [discriminate|]. intros (ds & [<- | E] & N & F & _); [inversion F; subst; lia|inversion E; subst; congruence].
      * rewrite D by discriminate. split.
        -- intros H. exists (c' :: r'). split; [right; reflexivity|]. split; [discriminate|exact H].
        -- intros (ds & [<- | E] & N & F & H); [inversion F; subst; lia|inversion E; subst; auto].
    + rewrite D by discriminate. split.
      * intros H. exists (c :: r). split; [left; reflexivity|]. split; [discriminate|exact H].
      * intros (ds & [<- | E] & N & H); [exact H|inversion E; congruence].
Qed.

Section Fields.
Context (ds : list arg_decl) (O : options) (A : agrees ds O) (gs : list given) (ND : NoDup (map fst gs)).
Context (K : forall l v, In (l, v) gs -> exists c, O l c (match v with Some _ => true | None => false end)).

Lemma field_flag_spec l c b : O (of_string l) c false -> (field_flag gs (of_string l) = b <-> flag_is gs l b).
Proof.
  intros HO. unfold field_flag, flag_is. destruct (given_value gs (of_string l)) as [v|] eqn:E.
  - apply given_value_some in E; auto.
    destruct v as [v|]; [|destruct b; intuition congruence].
    exfalso. apply K in E as (c' & HO'). pose proof (takes_unique ds O A _ _ _ _ _ HO HO'). discriminate.
  - destruct b; split; try discriminate; auto.
    + intros H. exfalso. destruct H as [H _]. specialize (H eq_refl). eapply given_value_none in E. apply E in H as [].
    + intros _. split; [discriminate|]. intros H. exfalso. eapply given_value_none in E. apply E in H as [].
Qed.
Lemma field_option_spec {T} (parse : str -> option T) (reads : str -> T -> Prop) l c o :
  (forall v t, parse v = Some t <-> reads v t) -> O (of_string l) c true ->
  (field_option parse gs (of_string l) = Some o <-> value_is reads gs l o).
Proof.
  intros P HO. unfold field_option, value_is. destruct (given_value gs (of_string l)) as [v|] eqn:E.
  - apply given_value_some in E as Hin; auto. destruct v as [v|].
    + destruct (parse v) as [t|] eqn:Ep; simpl.
      * split.
        -- intros Eo; inversion Eo; subst. exists v. split; auto. apply P; auto.
        -- destruct o as [t'|]; [|intros H; exfalso; eapply H; eauto]. intros (v' & Hin' & R).
           apply given_value_some in Hin'; auto. assert (v' = v) by congruence. subst. apply P in R. congruence.
      * split; [discriminate|]. destruct o as [t'|]; [|intros H; exfalso; eapply H; eauto]. intros (v' & Hin' & R).
        apply given_value_some in Hin'; auto. assert (v' = v) by congruence. subst. apply P in R. congruence.
    + exfalso. apply K in Hin as (c' & HO'). pose proof (takes_unique ds O A _ _ _ _ _ HO HO'). discriminate.
  - rewrite given_value_none in E. destruct o as [t|]; split; auto; try discriminate.
    intros (v & Hin & _). exfalso. eapply E; eauto.
Qed.
Lemma field_default_spec {T} (parse : str -> option T) (reads : str -> T -> Prop) d l c a :
  (forall v t, parse v = Some t <-> reads v t) -> O (of_string l) c true ->
  (field_default parse d gs (of_string l) = Some a <-> value_or reads d gs l a).
Proof.
  intros P HO. unfold field_default, value_or.
  pose proof (field_option_spec parse reads l c (Some a) P HO) as Hs. pose proof (field_option_spec parse reads l c None P HO) as Hn.
  destruct (field_option parse gs (of_string l)) as [[t|]|] eqn:E; simpl.
  - split.
    + intros E'; inversion E'; subst. left. apply Hs. reflexivity.
    + intros [H | [H _]]; [apply Hs in H; congruence|apply Hn in H; congruence].
  - split.
    + intros E'; inversion E'; subst. right. split; auto. apply Hn. reflexivity.
    + intros [H | [_ ->]]; [apply Hs in H; congruence|reflexivity].
  - split; [discriminate|]. intros [H | [H _]]; [apply Hs in H|apply Hn in H]; congruence.
Qed.
End Fields.

(** ** The declarations *)

Ltac decl_cases H := simpl in H; repeat (destruct H as [H | H]; [subst; simpl in *|]); try (destruct H; fail).
Ltac agree :=
  split; [|split; [|split; [|split]]];
  [ intros l c b; split;
      [intros H; destruct H; simpl; auto 8
      |intros H; simpl in H; repeat (destruct H as [H | H]; [inversion H; subst; constructor|]); destruct H]
  | repeat constructor; simpl; intros H; repeat (destruct H as [H | H]; [discriminate|]); destruct H
  | intros d1 d2 c H1 H2; simpl in H1, H2;
      repeat (destruct H1 as [H1 | H1]); try (destruct H1; fail); subst d1;
      repeat (destruct H2 as [H2 | H2]); try (destruct H2; fail); subst d2; simpl; congruence
  | intros d H; simpl in H; repeat (destruct H as [H | H]); try (destruct H; fail); subst d; simpl; split; try discriminate;
      unfold equals; intros C; repeat (destruct C as [C | C]; [discriminate|]); destruct C
  | intros d H; simpl in H; repeat (destruct H as [H | H]); try (destruct H; fail); subst d; simpl; discriminate ].
Lemma program_agrees : agrees program_decls program_options. Proof. agree. Qed.
Lemma equivalence_agrees : agrees equivalence_decls equivalence_options. Proof. agree. Qed.
Lemma binary_op_agrees : agrees binary_op_decls set_op_options. Proof. agree. Qed.
Lemma enumerate_regex_agrees : agrees enumerate_regex_decls enumerate_regex_options. Proof. agree. Qed.
Lemma enumerate_file_agrees : agrees enumerate_file_decls enumerate_options. Proof. agree. Qed.
Lemma test_file_agrees : agrees test_file_decls test_file_options. Proof. agree. Qed.

(** ** The commands *)

Lemma obind_some {A B} (o : option A) (f : A -> option B) b : obind o f = Some b <-> exists a, o = Some a /\ f a = Some b.
Proof.
  destruct o as [a|]; simpl; split; try discriminate; eauto.
  - intros (a' & E & H). inversion E; subst; exact H.
  - intros (a' & E & _). discriminate.
Qed.

Definition known (O : options) (gs : list given) : Prop :=
  NoDup (map fst gs) /\ forall l v, In (l, v) gs -> exists c, O l c (match v with Some _ => true | None => false end).

Ltac opt_hyp A H lem P c :=
  match type of H with
  | _ => eapply (lem _ _ A) in H; [|eassumption|eassumption|exact P|exact c]
  end.

Lemma read_equivalence_spec gs ps op : known equivalence_options gs ->
  (read_equivalence gs ps = Some op <-> exists a, op = OpEquivalence a /\ command_means op gs ps).
Proof.
  intros [ND K]. unfold read_equivalence. pose proof equivalence_agrees as A.
  pose proof (fun o => field_option_spec _ _ A gs ND K parse_type reads_type "in-type" _ o parse_type_spec e_in_type) as S1.
  pose proof (fun o => field_default_spec _ _ A gs ND K parse_type reads_type TDfa "type" _ o parse_type_spec e_type) as S2.
  pose proof (fun o => field_option_spec _ _ A gs ND K parse_usize reads_number "path-length" _ o parse_usize_spec e_path_length) as S3.
  pose proof (fun b => field_flag_spec _ _ A gs ND K "minimized" _ b e_minimized) as S4.
  pose proof (fun b => field_flag_spec _ _ A gs ND K "bool" _ b e_bool) as S5.
  split.
  - intros E. apply obind_some in E as (i & E1 & E). apply obind_some in E as (t & E2 & E). apply obind_some in E as (n & E3 & E).
    apply obind_some in E as (qs & E4 & E). apply parse_paths_spec in E4 as [-> Hq].
    destruct qs as [|f fs]; [discriminate|]. inversion E; subst; clear E. eexists. split; [reflexivity|]. simpl.
    rewrite <- S1, <- S2, <- S3, <- S4, <- S5. auto 10.
  - intros (a & -> & H1 & H2 & H3 & H4 & H5 & -> & Hq). apply S1 in H1. apply S2 in H2. apply S4 in H3. apply S5 in H4. apply S3 in H5.
    rewrite H1. cbn [obind]. rewrite H2. cbn [obind]. rewrite H5. cbn [obind].
    assert (E : parse_paths (ea_automata a :: ea_files a) = Some (ea_automata a :: ea_files a)) by (apply parse_paths_spec; auto).
    rewrite E. cbn [obind]. rewrite H3, H4. destruct a; reflexivity.
Qed.
Lemma read_binary_op_spec o gs ps op : known set_op_options gs ->
  (read_binary_op o gs ps = Some op <-> exists a, op = OpBinary o a /\ command_means op gs ps).
Proof.
  intros [ND K]. unfold read_binary_op. pose proof binary_op_agrees as A.
  pose proof (fun o => field_default_spec _ _ A gs ND K parse_type reads_type TDfa "type" _ o parse_type_spec s_type) as S1.
  pose proof (fun o => field_option_spec _ _ A gs ND K parse_type reads_type "second-type" _ o parse_type_spec s_second_type) as S2.
  pose proof (fun o => field_default_spec _ _ A gs ND K parse_type reads_type TDfa "compared-type" _ o parse_type_spec s_compared_type) as S3.
  pose proof (fun o => field_option_spec _ _ A gs ND K parse_usize reads_number "enumerate" _ o parse_usize_spec s_enumerate) as S4.
  pose proof (fun b => field_flag_spec _ _ A gs ND K "minimized" _ b s_minimized) as S5.
  split.
  - intros E. apply obind_some in E as (t & E1 & E). apply obind_some in E as (s & E2 & E). apply obind_some in E as (c & E3 & E).
    apply obind_some in E as (n & E4 & E). apply obind_some in E as (qs & E5 & E). apply parse_paths_spec in E5 as [-> Hq].
    destruct qs as [|f [|f2 [|f3 [|f4 fs]]]]; try discriminate; inversion E; subst; clear E; eexists; (split; [reflexivity|]); simpl;
      rewrite <- S1, <- S2, <- S3, <- S4, <- S5; auto 10.
  - intros (a & -> & H1 & H2 & H3 & H4 & H5 & -> & Hq). apply S1 in H1. apply S2 in H2. apply S3 in H3. apply S5 in H4. apply S4 in H5.
    rewrite H1. cbn [obind]. rewrite H2. cbn [obind]. rewrite H3. cbn [obind]. rewrite H5. cbn [obind].
    match goal with |- context [parse_paths ?l] => assert (E : parse_paths l = Some l) by (apply parse_paths_spec; auto) end.
    destruct a as [t s c m n f f2 [f3|]]; cbn [ba_compare_against ba_first ba_second] in *; rewrite E; simpl in *; rewrite H4; reflexivity.
Qed.
Lemma read_enumerate_regex_spec gs ps op : known enumerate_regex_options gs ->
  (read_enumerate_regex gs ps = Some op <-> exists n r, op = OpEnumerateRegex n r /\ command_means op gs ps).
Proof.
  intros [ND K]. unfold read_enumerate_regex. pose proof enumerate_regex_agrees as A.
  pose proof (fun o => field_default_spec _ _ A gs ND K parse_usize reads_number 20 "amount" _ o parse_usize_spec r_amount) as S1.
  split.
  - intros E. apply obind_some in E as (n & E1 & E). destruct ps as [|r [|]]; try discriminate. inversion E; subst.
    exists n, r. split; [reflexivity|]. split; [apply S1; exact E1|reflexivity].
  - intros (n & r & -> & H1 & ->). apply S1 in H1. rewrite H1. reflexivity.
Qed.
Lemma read_enumerate_file_spec gs ps op : known enumerate_options gs ->
  (read_enumerate_file gs ps = Some op <-> exists t n f, op = OpEnumerateFile t n f /\ command_means op gs ps).
Proof.
  intros [ND K]. unfold read_enumerate_file. pose proof enumerate_file_agrees as A.
  pose proof (fun o => field_default_spec _ _ A gs ND K parse_type reads_type TDfa "type" _ o parse_type_spec n_type) as S1.
  pose proof (fun o => field_default_spec _ _ A gs ND K parse_usize reads_number 30 "amount" _ o parse_usize_spec n_amount) as S2.
  split.
  - intros E. apply obind_some in E as (t & E1 & E). apply obind_some in E as (n & E2 & E). apply obind_some in E as (qs & E3 & E).
    apply parse_paths_spec in E3 as [-> Hq]. destruct qs as [|f [|]]; try discriminate. inversion E; subst.
    exists t, n, f. split; [reflexivity|]. split; [apply S1; exact E1|]. split; [apply S2; exact E2|]. split; [reflexivity|]. apply Hq. left; reflexivity.
  - intros (t & n & f & -> & H1 & H2 & -> & Hf). apply S1 in H1. apply S2 in H2. rewrite H1. cbn [obind]. rewrite H2. cbn [obind].
    assert (E : parse_paths [f] = Some [f]) by (apply parse_paths_spec; split; auto; intros p [<- | []]; exact Hf).
    rewrite E. reflexivity.
Qed.
Lemma read_test_file_spec gs ps op : known test_file_options gs ->
  (read_test_file gs ps = Some op <-> exists t u f fs, op = OpTestFile t u f fs /\ command_means op gs ps).
Proof.
  intros [ND K]. unfold read_test_file. pose proof test_file_agrees as A.
  pose proof (fun o => field_default_spec _ _ A gs ND K parse_type reads_type TDfa "type" _ o parse_type_spec t_type) as S1.
  pose proof (fun o => field_default_spec _ _ A gs ND K parse_test_type reads_test_type TLines "test-type" _ o parse_test_type_spec t_test_type) as S2.
  split.
  - intros E. apply obind_some in E as (t & E1 & E). apply obind_some in E as (u & E2 & E). apply obind_some in E as (qs & E3 & E).
    apply parse_paths_spec in E3 as [-> Hq]. destruct qs as [|f fs]; try discriminate. inversion E; subst.
    exists t, u, f, fs. split; [reflexivity|]. split; [apply S1; exact E1|]. split; [apply S2; exact E2|]. auto.
  - intros (t & u & f & fs & -> & H1 & H2 & -> & Hf). apply S1 in H1. apply S2 in H2. rewrite H1. cbn [obind]. rewrite H2. cbn [obind].
    assert (E : parse_paths (f :: fs) = Some (f :: fs)) by (apply parse_paths_spec; auto).
    rewrite E. reflexivity.
Qed.

(** The commands, by their names *)
Lemma find_command_spec name ds read : find_command name = Some (ds, read) ->
  exists O, agrees ds O /\ (forall op, command_name op = name -> command_options op = O) /\ forall gs ps op, known O gs ->
    (read gs ps = Some op <-> command_name op = name /\ command_options op = O /\ command_means op gs ps).
Proof.
  unfold find_command. intros E.
  destruct (eqb_spec name (of_string "equivalence")) as [-> | N1].
  { inversion E; subst. exists equivalence_options. split; [exact equivalence_agrees|]. split; [intros [a|[] a| | |] En; try discriminate En; reflexivity|]. intros gs ps op Kn.
    rewrite (read_equivalence_spec gs ps op Kn). split; [intros (a & -> & H); auto|].
    intros (Hn & _ & H). destruct op as [a|[] a| | |]; try discriminate Hn. eauto. }
  destruct (eqb_spec name (of_string "union")) as [-> | N2].
  { inversion E; subst. exists set_op_options. split; [exact binary_op_agrees|]. split; [intros [a|[] a| | |] En; try discriminate En; reflexivity|]. intros gs ps op Kn.
    rewrite (read_binary_op_spec OUnion gs ps op Kn). split; [intros (a & -> & H); auto|].
    intros (Hn & _ & H). destruct op as [a|[] a| | |]; try discriminate Hn. eauto. }
  destruct (eqb_spec name (of_string "intersection")) as [-> | N3].
  { inversion E; subst. exists set_op_options. split; [exact binary_op_agrees|]. split; [intros [a|[] a| | |] En; try discriminate En; reflexivity|]. intros gs ps op Kn.
    rewrite (read_binary_op_spec OIntersection gs ps op Kn). split; [intros (a & -> & H); auto|].
    intros (Hn & _ & H). destruct op as [a|[] a| | |]; try discriminate Hn. eauto. }
  destruct (eqb_spec name (of_string "difference")) as [-> | N4].
  { inversion E; subst. exists set_op_options. split; [exact binary_op_agrees|]. split; [intros [a|[] a| | |] En; try discriminate En; reflexivity|]. intros gs ps op Kn.
    rewrite (read_binary_op_spec ODifference gs ps op Kn). split; [intros (a & -> & H); auto|].
    intros (Hn & _ & H). destruct op as [a|[] a| | |]; try discriminate Hn. eauto. }
  destruct (eqb_spec name (of_string "symmetric-difference")) as [-> | N5].
  { inversion E; subst. exists set_op_options. split; [exact binary_op_agrees|]. split; [intros [a|[] a| | |] En; try discriminate En; reflexivity|]. intros gs ps op Kn.
    rewrite (read_binary_op_spec OSymmetricDifference gs ps op Kn). split; [intros (a & -> & H); auto|].
    intros (Hn & _ & H). destruct op as [a|[] a| | |]; try discriminate Hn. eauto. }
  destruct (eqb_spec name (of_string "enumerate-regex")) as [-> | N6].
  { inversion E; subst. exists enumerate_regex_options. split; [exact enumerate_regex_agrees|]. split; [intros [a|[] a| | |] En; try discriminate En; reflexivity|]. intros gs ps op Kn.
    rewrite (read_enumerate_regex_spec gs ps op Kn). split; [intros (n & r & -> & H); auto|].
    intros (Hn & _ & H). destruct op as [a|[] a| | |]; try discriminate Hn. eauto. }
  destruct (eqb_spec name (of_string "enumerate")) as [-> | N7].
  { inversion E; subst. exists enumerate_options. split; [exact enumerate_file_agrees|]. split; [intros [a|[] a| | |] En; try discriminate En; reflexivity|]. intros gs ps op Kn.
    rewrite (read_enumerate_file_spec gs ps op Kn). split; [intros (t & n & f & -> & H); auto|].
    intros (Hn & _ & H). destruct op as [a|[] a| | |]; try discriminate Hn. eauto. }
  destruct (eqb_spec name (of_string "test-file")) as [-> | N8]; [|discriminate].
  inversion E; subst. exists test_file_options. split; [exact test_file_agrees|]. split; [intros [a|[] a| | |] En; try discriminate En; reflexivity|]. intros gs ps op Kn.
  rewrite (read_test_file_spec gs ps op Kn). split; [intros (t & u & f & fs & -> & H); auto|].
  intros (Hn & _ & H). destruct op as [a|[] a| | |]; try discriminate Hn. eauto 6.
Qed.
Lemma find_command_name op : exists ds read, find_command (command_name op) = Some (ds, read).
Proof. destruct op as [a|[] a| | |]; eexists; eexists; reflexivity. Qed.
Lemma command_name_plain op : plain_argument (command_name op).
Proof. apply token_value. destruct op as [a|[] a| | |]; reflexivity. Qed.
Lemma command_options_name op op' : command_name op = command_name op' -> command_options op = command_options op'.
Proof. destruct op as [a|[] a| | |], op' as [a'|[] a'| | |]; simpl; intros E; try reflexivity; discriminate E. Qed.

Theorem parse_args_spec argv a : parse_args argv = Some a <-> asks_for argv a.
Proof.
  unfold parse_args, asks_for. pose proof program_agrees as PA. split.
  - intros E. apply obind_some in E as ([gs rest] & Ep & E).
    destruct (program_sound _ _ PA argv None gs rest Ep) as (name & rest' & -> & Hn & W).
    destruct (repeated gs) eqn:Er; [discriminate|]. apply repeated_spec in Er.
    apply obind_some in E as (out & Eo & E). apply obind_some in E as ([ds read] & Ec & E).
    destruct (find_command_spec _ _ _ Ec) as (O & A & EO' & R).
    apply obind_some in E as ([cgs ps] & Ea & E). pose proof (command_sound _ _ A rest' None cgs ps Ea) as Wc. simpl in Wc.
    destruct (repeated cgs) eqn:Er'; [discriminate|]. apply repeated_spec in Er'.
    apply obind_some in E as (op & Eop & E). inversion E; subst; clear E. simpl.
    assert (Kp : forall l v, In (l, v) gs -> exists c, program_options l c (match v with Some _ => true | None => false end))
      by (intros l v; apply (program_known _ _ _ _ _ l v W)).
    assert (Kc : known O cgs) by (split; [exact Er'|intros l v; apply (command_known _ _ _ _ l v Wc)]).
    apply (R cgs ps op Kc) in Eop as (En & EO & M). subst O.
    exists gs, cgs, ps, rest'. rewrite En. repeat split; auto.
    + eapply (field_option_spec _ _ PA gs Er Kp parse_path reads_path "out" _ out parse_path_spec o_out). exact Eo.
    + eapply (field_flag_spec _ _ PA gs Er Kp "less-logs" _ _ o_less_logs). reflexivity.
    + eapply (field_flag_spec _ _ PA gs Er Kp "less-logs" _ _ o_less_logs). reflexivity.
  - intros (gs & cgs & ps & rest & W & ND & Ho & Hl & Wc & NDc & M).
    assert (Kp : forall l v, In (l, v) gs -> exists c, program_options l c (match v with Some _ => true | None => false end))
      by (intros l v; apply (program_known _ _ _ _ _ l v W)).
    rewrite (program_complete _ _ PA _ _ _ _ (command_name_plain _) W). simpl.
    rewrite (proj2 (repeated_spec gs) ND).
    apply (field_option_spec _ _ PA gs ND Kp parse_path reads_path "out" _ _ parse_path_spec o_out) in Ho.
    rewrite Ho. cbn [obind].
    destruct (find_command_name (da_command a)) as (ds & read & Ec). rewrite Ec. cbn [obind].
    destruct (find_command_spec _ _ _ Ec) as (O & A & EO' & R).
    rewrite (EO' _ eq_refl) in Wc. rewrite (command_complete _ _ A _ _ _ Wc). cbn [obind].
    rewrite (proj2 (repeated_spec cgs) NDc).
    assert (Kc : known O cgs) by (split; [exact NDc|intros l v; apply (command_known _ _ _ _ l v Wc)]).
    rewrite (proj2 (R cgs ps (da_command a) Kc)) by auto. cbn [obind].
    apply (field_flag_spec _ _ PA gs ND Kp "less-logs" _ _ o_less_logs) in Hl. rewrite Hl. destruct a; reflexivity.
Qed.
