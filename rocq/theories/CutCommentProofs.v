(** * CutCommentProofs: comments and carriage returns do not matter for texts whose end is missing *)
From Coq Require Import List NArith Arith Bool Lia.
From Verif Require Import Base Spec TableSpec LayoutSpec WasmSpec CutSpec CutProofs CutNfaProofs.
Import ListNotations.

(** the text without comments and carriage returns; [m]: inside of a comment *)
Fixpoint strip (m : bool) (u : str) : str :=
  match u with
  | [] => []
  | c :: r => if N.eqb c 10 then c :: strip false r else if N.eqb c 13 then strip false r
              else if m then strip true r else if N.eqb c 35 then strip true r else c :: strip false r
  end.
Fixpoint inside (m : bool) (u : str) : bool :=
  match u with
  | [] => m
  | c :: r => inside (if N.eqb c 10 then false else if N.eqb c 13 then false else m || N.eqb c 35) r
  end.
Lemma strip_app u v : forall m, strip m (u ++ v) = strip m u ++ strip (inside m u) v.
Proof.
  induction u as [|c u IH]; intros m; auto. cbn [app strip inside]. destruct (N.eqb c 10); [cbn [app]; f_equal; apply IH|]. destruct (N.eqb c 13); [apply IH|].
  destruct m; [apply IH|]. cbn [orb]. destruct (N.eqb c 35); [apply IH|]. cbn [app]. f_equal. apply IH.
Qed.
Lemma inside_app u v : forall m, inside m (u ++ v) = inside (inside m u) v.
Proof. induction u as [|c u IH]; intros m; auto. cbn [app inside]. apply IH. Qed.
Lemma strip_plain u : forall m, plain (strip m u).
Proof.
  induction u as [|c u IH]; intros m x; [intros []|]. cbn [strip]. destruct (N.eqb_spec c 10) as [->|_].
  - intros [<- |H]; [split; discriminate|exact (IH _ x H)].
  - destruct (N.eqb_spec c 13) as [->|N13]; [apply IH|]. destruct m; [apply IH|]. destruct (N.eqb_spec c 35) as [->|N35]; [apply IH|].
    intros [<- |H]; [auto|exact (IH _ x H)].
Qed.
(** [u'] is left of [u], and [u] does not end in a comment *)
Definition leaves (u u' : str) : Prop := strip false u = u' /\ inside false u = false.
Lemma leaves_app u u' v v' : leaves u u' -> leaves v v' -> leaves (u ++ v) (u' ++ v').
Proof. intros [E I] [E' I']. split; [rewrite strip_app, I; congruence|rewrite inside_app, I; auto]. Qed.
Lemma leaves_plain u : plain u -> leaves u u.
Proof.
  induction u as [|c u IH]; intros P; [split; auto|]. assert (Pu : plain u) by (intros x Hx; apply P; right; auto). destruct (IH Pu) as [E I].
  destruct (P c (or_introl eq_refl)) as [A B]. apply N.eqb_neq in A, B. unfold leaves. cbn [strip inside]. rewrite A, B. destruct (N.eqb c 10); cbn; rewrite E; auto.
Qed.
Lemma plain_blank b : blank b -> plain b.
Proof. intros H c Hc. destruct (H c Hc) as [->| ->]; split; discriminate. Qed.
Lemma plain_join u v : plain u -> plain v -> plain (u ++ v).
Proof. intros H K c Hc. apply in_app_or in Hc as [|]; auto. Qed.
Lemma strip_comment t : (forall c, In c t -> c <> 10%N /\ c <> 13%N) -> strip true t = [] /\ inside true t = true.
Proof.
  induction t as [|c t IH]; intros H; auto. destruct (H c (or_introl eq_refl)) as [A B]. apply N.eqb_neq in A, B. cbn [strip inside]. rewrite A, B. apply IH. intros x Hx. apply H. right. auto.
Qed.
Lemma strip_trail t : trail t -> exists b, blank b /\ strip false t = b.
Proof.
  intros (b & c & -> & B & C). exists b. split; auto. destruct (leaves_plain b (plain_blank b B)) as [E I]. rewrite strip_app, E, I.
  destruct C as [->|(x & -> & X)]; [apply app_nil_r|]. cbn [strip]. rewrite (proj1 (strip_comment x X)). apply app_nil_r.
Qed.
Lemma leaves_junk_line l : junk_line l -> exists l', leaves l l' /\ junk_line l'.
Proof.
  intros (t & e & -> & T & E). destruct (strip_trail t T) as (b & B & S). exists (b ++ [10%N]). split.
  - assert (X : forall m, strip m e = [10%N] /\ inside m e = false) by (intros m; destruct E as [->| ->]; auto). split; [rewrite strip_app, S, (proj1 (X _)); auto|rewrite inside_app; apply X].
  - exists b, [10%N]. split; auto. split; [apply trail_blank; auto|left; auto].
Qed.
Lemma leaves_lines ls : Forall junk_line ls -> exists ls', leaves (concat ls) (concat ls') /\ Forall junk_line ls'.
Proof.
  induction 1 as [|l ls L _ (ls' & E & F)]; [exists []; split; [split; auto|auto]|]. destruct (leaves_junk_line l L) as (l' & E' & L'). exists (l' :: ls'). split; auto. cbn [concat]. apply leaves_app; auto.
Qed.
Lemma leaves_junk j : junk j -> exists j', leaves j j' /\ junk j'.
Proof. intros (ls & -> & F). destruct (leaves_lines ls F) as (ls' & E & F'). exists (concat ls'). split; auto. exists ls'. auto. Qed.
Lemma leaves_junk1 j : junk1 j -> exists j', leaves j j' /\ junk1 j'.
Proof.
  intros (l & ls & -> & L & F). destruct (leaves_junk_line l L) as (l' & E & L'). destruct (leaves_lines ls F) as (ls' & E' & F'). exists (l' ++ concat ls'). split; [apply leaves_app; auto|]. exists l', ls'. auto.
Qed.
Lemma leaves_items {A} (item : A -> str -> Prop) l u : (forall a u, item a u -> plain u) -> sep_by junk1 item l u -> exists u', leaves u u' /\ sep_by junk1 item l u'.
Proof.
  intros P. induction 1 as [a u I|a u s l v I S _ (v' & E & B)].
  - exists u. split; [apply leaves_plain; eauto|constructor; auto].
  - destruct (leaves_junk1 s S) as (s' & E' & S'). exists (u ++ s' ++ v'). split; [|constructor; auto]. repeat apply leaves_app; auto. apply leaves_plain. eauto.
Qed.
Lemma plain_list {A} (item : A -> str -> Prop) l u : (forall a u, item a u -> plain u) -> sep_by blank1 item l u -> plain u.
Proof. intros P. induction 1 as [a u I|a u s l v I [S _] _ IH]; eauto using plain_join, plain_blank. Qed.
Lemma plain_token t u : token_text t u -> plain u.
Proof. intros [L ->]. apply legal_plain. auto. Qed.
Lemma plain_start i k n u : line_start i k n u -> plain u.
Proof.
  intros (a & s & -> & A & S & L). apply plain_join; [|apply plain_join; auto using legal_plain].
  - destruct i; [destruct A as (w & b & -> & W & [B _])|subst a; intros c []]. apply plain_join; auto using plain_blank.
    destruct W as [->| ->]; intros c; cbn; intuition (subst; discriminate).
  - destruct k; [destruct S as (b & -> & [B _])|subst s; intros c []]. intros c [<- |Hc]; [split; discriminate|]. apply (plain_blank _ B); auto.
Qed.
Lemma plain_dfa_line s u : dfa_line_text s u -> plain u.
Proof. intros (b0 & st & b & ts & -> & B0 & [B _] & S & T). repeat apply plain_join; eauto using plain_blank, plain_start, plain_list, plain_token. Qed.
Lemma plain_set ts u : set_text ts u -> plain u.
Proof.
  intros (b1 & v & b2 & -> & B1 & B2 & V). assert (plain v) by (destruct V as [[_ ->]|V]; [intros c []|eauto using plain_list, plain_token]).
  repeat apply plain_join; auto using plain_blank; intros c [<- |[]]; split; discriminate.
Qed.
Lemma plain_nfa_line s u : nfa_line_text s u -> plain u.
Proof. intros (b0 & st & b & ts & -> & B0 & [B _] & S & T). repeat apply plain_join; eauto using plain_blank, plain_start, plain_list, plain_set. Qed.
Lemma plain_dfa_head h u : dfa_head_text h u -> plain u.
Proof. intros (b & ts & -> & B & T). apply plain_join; eauto using plain_blank, plain_list, plain_token. Qed.
Lemma plain_entry e u : entry_text e u -> plain u.
Proof. destruct e as [a|]; [apply plain_token|]. intros [->| ->] c; cbn; intuition (subst; discriminate). Qed.
Lemma plain_nfa_head h u : nfa_head_text h u -> plain u.
Proof. intros (b & ts & -> & B & T). apply plain_join; eauto using plain_blank, plain_list, plain_entry. Qed.
Lemma strip_table (h j0 j1 body j2 t : str) A (line : A -> str -> Prop) l : (forall a u, line a u -> plain u) -> plain h -> junk j0 -> junk1 j1 -> sep_by junk1 line l body -> junk j2 -> trail t ->
  exists j0' j1' body' j2' t', strip false (j0 ++ h ++ j1 ++ body ++ j2 ++ t) = j0' ++ h ++ j1' ++ body' ++ j2' ++ t' /\ junk j0' /\ junk1 j1' /\ sep_by junk1 line l body' /\ junk j2' /\ trail t'.
Proof.
  intros P H J0 J1 B J2 T. destruct (leaves_junk j0 J0) as (j0' & [E0 I0] & J0'), (leaves_junk1 j1 J1) as (j1' & [E1 I1] & J1'), (leaves_items line l body P B) as (body' & [Eb Ib] & B'),
    (leaves_junk j2 J2) as (j2' & [E2 I2] & J2'), (strip_trail t T) as (b & Hb & E), (leaves_plain h H) as [Eh Ih].
  exists j0', j1', body', j2', b. split; [|auto 7 using trail_blank]. rewrite strip_app, E0, I0, strip_app, Eh, Ih, strip_app, E1, I1, strip_app, Eb, Ib, strip_app, E2, I2, E. auto.
Qed.
Theorem strip_dfa p u : dfa_text p u -> dfa_text p (strip false u).
Proof.
  intros (j0 & h & j1 & body & j2 & t & -> & J0 & H & J1 & S & J2 & Tr).
  destruct (strip_table h j0 j1 body j2 t _ _ _ plain_dfa_line (plain_dfa_head _ _ H) J0 J1 S J2 Tr) as (j0' & j1' & body' & j2' & t' & -> & ? & ? & ? & ? & ?).
  exists j0', h, j1', body', j2', t'. auto 8.
Qed.
Theorem strip_nfa p u : nfa_text p u -> nfa_text p (strip false u).
Proof.
  intros (j0 & h & j1 & body & j2 & t & -> & J0 & H & J1 & S & J2 & Tr).
  destruct (strip_table h j0 j1 body j2 t _ _ _ plain_nfa_line (plain_nfa_head _ _ H) J0 J1 S J2 Tr) as (j0' & j1' & body' & j2' & t' & -> & ? & ? & ? & ? & ?).
  exists j0', h, j1', body', j2', t'. auto 8.
Qed.
Theorem cut_any u v d d' : loads_dfa (u ++ v) d -> loads_dfa u d' -> apart (map ds_name (dfa_states d)) ->
  dfa_alphabet d' = dfa_alphabet d /\ (forall w, dfa_lang d' w <-> dfa_lang d w) /\ ((forall q, q < length (dfa_states d) -> dfa_reachable d q) -> d' = d).
Proof.
  intros (P & HP & WP & DP) (p & Hp & Wp & Dp) Ap. apply strip_dfa in HP, Hp. pose proof (strip_plain (u ++ v) false) as Pl. rewrite strip_app in HP, Pl.
  refine (cut_loads _ _ d d' _ _ Pl Ap); [exists P; auto|exists p; auto].
Qed.
Theorem nfa_cut_any u v n n' : loads_nfa (u ++ v) n -> loads_nfa u n' ->
  nfa_alphabet n' = nfa_alphabet n /\ (forall w, nfa_lang n' w <-> nfa_lang n w) /\ ((forall q, q < length (nfa_states n) -> nfa_reachable n q) -> n' = n).
Proof.
  intros (P & HP & WP & DP) (p & Hp & Wp & Dp). apply strip_nfa in HP, Hp. pose proof (strip_plain (u ++ v) false) as Pl. rewrite strip_app in HP, Pl.
  refine (nfa_cut_loads _ _ n n' _ _ Pl); [exists P; auto|exists p; auto].
Qed.
