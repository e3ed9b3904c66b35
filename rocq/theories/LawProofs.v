(** * LawProofs: the laws of LawSpec derive exactly the true equations *)
From Coq Require Import List NArith Arith Bool Lia Setoid Morphisms.
From Verif Require Import Base Spec RegexSpec LawSpec.
Import ListNotations.

#[local] Instance law_equiv : Equivalence law.
Proof. split; [ exact law_refl | exact law_sym | exact law_trans ]. Qed.
#[local] Instance seq_proper : Proper (law ==> law ==> law) DSeq.
Proof. intros a a' H b b' H'. apply law_in_seq; auto. Qed.
#[local] Instance alt_proper : Proper (law ==> law ==> law) DAlt.
Proof. intros a a' H b b' H'. apply law_in_alt; auto. Qed.
#[local] Instance star_proper : Proper (law ==> law) DStar.
Proof. intros a a' H. apply law_in_star; auto. Qed.

Local Infix "==" := law (at level 70).
Local Infix "+" := DAlt.
Local Infix "*" := DSeq.

(** ** Soundness *)

Definition same_lang (a b : doc_regex) : Prop := forall w, doc_lang a w <-> doc_lang b w.

Lemma lang_seq a b w : doc_lang (a * b) w <-> exists w1 w2, w = w1 ++ w2 /\ doc_lang a w1 /\ doc_lang b w2.
Proof. split; [ inversion 1; subst; eauto 8 | intros (w1 & w2 & -> & H1 & H2); constructor; auto ]. Qed.
Lemma lang_alt a b w : doc_lang (a + b) w <-> doc_lang a w \/ doc_lang b w.
Proof. split; [ inversion 1; subst; auto | intros [H | H]; [ apply dl_alt_l | apply dl_alt_r ]; auto ]. Qed.
Lemma lang_eps w : doc_lang DEps w <-> w = [].
Proof. split; [ inversion 1; auto | intros ->; constructor ]. Qed.
Lemma lang_empty w : doc_lang DEmpty w <-> False.
Proof. split; [ inversion 1 | tauto ]. Qed.
Lemma lang_sym g w : doc_lang (DSym g) w <-> w = [g].
Proof. split; [ inversion 1; auto | intros ->; constructor ]. Qed.
Lemma lang_plus a w : doc_lang (DPlus a) w <-> doc_lang (a * DStar a) w.
Proof. rewrite lang_seq. split; [ inversion 1; subst; eauto 8 | intros (w1 & w2 & -> & H1 & H2); constructor; auto ]. Qed.

Lemma star_ind a (P : word -> Prop) : P [] -> (forall w1 w2, doc_lang a w1 -> doc_lang (DStar a) w2 -> P w2 -> P (w1 ++ w2)) ->
  forall w, doc_lang (DStar a) w -> P w.
Proof.
  intros H0 H1 w H. remember (DStar a) as e eqn:E. induction H; inversion E; subst; auto.
Qed.

Lemma star_mono a b : (forall w, doc_lang a w -> doc_lang b w) -> forall w, doc_lang (DStar a) w -> doc_lang (DStar b) w.
Proof. intros H. apply star_ind; [ constructor | intros; constructor; auto ]. Qed.

Lemma lang_star a w : doc_lang (DStar a) w <-> w = [] \/ exists w1 w2, w = w1 ++ w2 /\ doc_lang a w1 /\ doc_lang (DStar a) w2.
Proof.
  split.
  - inversion 1; subst; eauto 8.
  - intros [-> | (w1 & w2 & -> & H1 & H2)]; constructor; auto.
Qed.

Lemma star_nonempty a w : doc_lang (DStar a) w -> w = [] \/ exists x w1 w2, w = (x :: w1) ++ w2 /\ doc_lang a (x :: w1) /\ doc_lang (DStar a) w2.
Proof.
  revert w. apply star_ind; auto. intros [| x w1] w2 H H2 IH; [ exact IH |]. right. exists x, w1, w2. auto.
Qed.

Lemma has_empty_spec e : has_empty e = true <-> doc_lang e [].
Proof.
  induction e as [ | | g | a IHa b IHb | a IHa b IHb | a IHa | a IHa ]; cbn [has_empty].
  - rewrite lang_empty. intuition discriminate.
  - rewrite lang_eps. tauto.
  - rewrite lang_sym. intuition discriminate.
  - rewrite andb_true_iff, IHa, IHb, lang_seq. split.
    + intros [H1 H2]. exists [], []. auto.
    + intros (w1 & w2 & E & H1 & H2). symmetry in E. apply app_eq_nil in E as [-> ->]. auto.
  - rewrite orb_true_iff, IHa, IHb, lang_alt. tauto.
  - split; auto. intros _. constructor.
  - rewrite IHa, lang_plus, lang_seq. split.
    + intros H. exists [], []. repeat split; auto. constructor.
    + intros (w1 & w2 & E & H1 & H2). symmetry in E. apply app_eq_nil in E as [-> ->]. auto.
Qed.

Lemma solve_sound a b x : ~ doc_lang a [] -> same_lang x (a * x + b) -> same_lang x (DStar a * b).
Proof.
  intros N H.
  assert (G : forall n w, length w <= n -> doc_lang x w -> doc_lang (DStar a * b) w).
  { induction n as [| n IH]; intros w L Hw; apply H in Hw; apply lang_alt in Hw as [Hw | Hw].
    - apply lang_seq in Hw as (w1 & w2 & -> & H1 & H2). destruct w1 as [| c w1]; [ tauto | cbn in L; lia ].
    - apply lang_seq. exists [], w. repeat split; auto. constructor.
    - apply lang_seq in Hw as (w1 & w2 & -> & H1 & H2). destruct w1 as [| c w1]; [ tauto |].
      assert (D : doc_lang (DStar a * b) w2). { apply IH; auto. cbn in L. rewrite app_length in L. lia. }
      apply lang_seq in D as (v1 & v2 & -> & D1 & D2). apply lang_seq. exists ((c :: w1) ++ v1), v2.
      repeat split; auto. { rewrite app_assoc. auto. } constructor; auto.
    - apply lang_seq. exists [], w. repeat split; auto. constructor. }
  intros w. split; [ apply (G (length w)); auto |].
  rewrite lang_seq. intros (w1 & w2 & -> & H1 & H2). revert w1 H1.
  apply (star_ind a (fun w1 => doc_lang x (w1 ++ w2))).
  - apply H, lang_alt. auto.
  - intros v1 v2 D1 D2 IH. apply H, lang_alt. left. apply lang_seq. exists v1, (v2 ++ w2). rewrite app_assoc. auto.
Qed.

Lemma law_sound a b : a == b -> same_lang a b.
Proof.
  induction 1; intros w.
  - tauto.
  - symmetry. auto.
  - rewrite (IHlaw1 w). auto.
  - rewrite !lang_seq. split; intros (w1 & w2 & E & H1 & H2); exists w1, w2; repeat split; auto; try apply IHlaw1; try apply IHlaw2; auto.
  - rewrite !lang_alt, (IHlaw1 w), (IHlaw2 w). tauto.
  - split; apply star_mono; apply IHlaw.
  - rewrite !lang_alt. tauto.
  - rewrite !lang_alt. tauto.
  - rewrite !lang_alt. tauto.
  - rewrite !lang_alt, lang_empty. tauto.
  - rewrite !lang_seq. split.
    + intros (w1 & w2 & -> & H1 & H2). apply lang_seq in H2 as (v1 & v2 & -> & D1 & D2). exists (w1 ++ v1), v2.
      rewrite app_assoc. repeat split; auto. apply lang_seq. eauto.
    + intros (w1 & w2 & -> & H1 & H2). apply lang_seq in H1 as (v1 & v2 & -> & D1 & D2). exists v1, (v2 ++ w2).
      rewrite app_assoc. repeat split; auto. apply lang_seq. eauto.
  - rewrite !lang_seq. split.
    + intros (w1 & w2 & -> & H1 & H2). apply lang_eps in H1. subst. auto.
    + intros D. exists [], w. repeat split; auto. constructor.
  - rewrite !lang_seq. split.
    + intros (w1 & w2 & -> & H1 & H2). apply lang_eps in H2. subst. rewrite app_nil_r. auto.
    + intros D. exists w, []. rewrite app_nil_r. repeat split; auto. constructor.
  - rewrite lang_seq, lang_empty. split; [| tauto ]. intros (w1 & w2 & -> & H1 & H2). inversion H1.
  - rewrite lang_seq, lang_empty. split; [| tauto ]. intros (w1 & w2 & -> & H1 & H2). inversion H2.
  - rewrite lang_alt, !lang_seq. split.
    + intros (w1 & w2 & -> & H1 & H2). apply lang_alt in H1 as [H1 | H1]; [ left | right ]; eauto.
    + intros [(w1 & w2 & -> & H1 & H2) | (w1 & w2 & -> & H1 & H2)]; exists w1, w2; repeat split; auto; apply lang_alt; auto.
  - rewrite lang_alt, !lang_seq. split.
    + intros (w1 & w2 & -> & H1 & H2). apply lang_alt in H2 as [H2 | H2]; [ left | right ]; eauto.
    + intros [(w1 & w2 & -> & H1 & H2) | (w1 & w2 & -> & H1 & H2)]; exists w1, w2; repeat split; auto; apply lang_alt; auto.
  - rewrite lang_alt, lang_eps, lang_seq. apply lang_star.
  - split.
    + apply (star_ind (DEps + a) (fun w => doc_lang (DStar a) w)); [ constructor |]. intros w1 w2 H1 H2 IH.
      apply lang_alt in H1 as [H1 | H1]. { apply lang_eps in H1. subst. auto. } constructor; auto.
    + apply star_mono. intros v H. apply lang_alt. auto.
  - apply lang_plus.
  - apply solve_sound; auto. rewrite <- has_empty_spec. congruence.
Qed.

(** ** Sums *)

Definition sum (l : list doc_regex) : doc_regex := fold_right DAlt DEmpty l.

Lemma alt_empty_r a : a + DEmpty == a.
Proof. rewrite law_alt_comm. apply law_alt_empty. Qed.

Lemma sum_app l1 l2 : sum (l1 ++ l2) == sum l1 + sum l2.
Proof.
  induction l1 as [| x l1 IH]; cbn [app sum fold_right].
  - symmetry. apply law_alt_empty.
  - fold (sum (l1 ++ l2)) (sum l1). rewrite IH. apply law_alt_assoc.
Qed.

Lemma sum_cons x l : sum (x :: l) = x + sum l.
Proof. reflexivity. Qed.

Lemma sum_in x l : In x l -> x + sum l == sum l.
Proof.
  induction l as [| y l IH]; [ contradiction |]. rewrite sum_cons. intros [-> | H].
  - rewrite law_alt_assoc, law_alt_same. reflexivity.
  - rewrite law_alt_assoc, (law_alt_comm x y), <- law_alt_assoc, (IH H). reflexivity.
Qed.

Lemma sum_incl l1 l2 : incl l1 l2 -> sum l1 + sum l2 == sum l2.
Proof.
  induction l1 as [| x l1 IH]; intros H.
  - apply law_alt_empty.
  - rewrite sum_cons, <- law_alt_assoc, IH; [ apply sum_in, H; left; auto | intros y Hy; apply H; right; auto ].
Qed.

Lemma sum_same l1 l2 : same_set l1 l2 -> sum l1 == sum l2.
Proof.
  intros H. rewrite <- (sum_incl l1 l2), law_alt_comm; [| intros x; apply H ].
  symmetry. apply sum_incl. intros x. apply H.
Qed.

Lemma sum_map_law {A} (f g : A -> doc_regex) l : (forall x, In x l -> f x == g x) -> sum (map f l) == sum (map g l).
Proof.
  induction l as [| x l IH]; intros H; cbn [map]; [ reflexivity |]. rewrite !sum_cons, IH, (H x); [ reflexivity | left; auto |].
  intros y Hy. apply H. right. auto.
Qed.

Lemma sum_seq l b : sum l * b == sum (map (fun a => a * b) l).
Proof.
  induction l as [| x l IH]; cbn [map]; [ apply law_empty_seq |]. rewrite !sum_cons, law_alt_seq, IH. reflexivity.
Qed.

Lemma seq_sum l b : b * sum l == sum (map (fun a => b * a) l).
Proof.
  induction l as [| x l IH]; cbn [map]; [ apply law_seq_empty |]. rewrite !sum_cons, law_seq_alt, IH. reflexivity.
Qed.

Lemma sum_flat_map {A} (f : A -> list doc_regex) l : sum (flat_map f l) == sum (map (fun x => sum (f x)) l).
Proof.
  induction l as [| x l IH]; cbn [map flat_map]; [ reflexivity |]. rewrite sum_app, sum_cons, IH. reflexivity.
Qed.

Lemma sum_map_alt {A} (f g : A -> doc_regex) l : sum (map (fun x => f x + g x) l) == sum (map f l) + sum (map g l).
Proof.
  induction l as [| x l IH]; cbn [map]; [ symmetry; apply law_alt_same |]. rewrite !sum_cons, IH.
  rewrite <- !law_alt_assoc. apply alt_proper; [ reflexivity |]. rewrite !law_alt_assoc. apply alt_proper; [| reflexivity ].
  apply law_alt_comm.
Qed.

Lemma lang_sum l w : doc_lang (sum l) w <-> exists e, In e l /\ doc_lang e w.
Proof.
  induction l as [| x l IH].
  - cbn. rewrite lang_empty. split; [ tauto | intros (e & [] & _) ].
  - rewrite sum_cons, lang_alt, IH. cbn [In]. split.
    + intros [H | (e & H & D)]; eauto.
    + intros (e & [-> | H] & D); eauto.
Qed.

(** ** Unique solutions of linear systems *)

Definition pair_dec : forall p q : doc_regex * doc_regex, {p = q} + {p <> q}.
Proof. repeat decide equality. Qed.

Section Systems.
Variable K : doc_regex * doc_regex -> Prop.

(** both halves of [p] are the same linear combination of halves of elements of [P] *)
Definition combination (P : list (doc_regex * doc_regex)) (p : doc_regex * doc_regex) : Prop :=
  exists k ps, (forall a q, In (a, q) ps -> has_empty a = false /\ In q P /\ K q) /\
    fst p == k + sum (map (fun aq => fst aq * fst (snd aq)) ps) /\
    snd p == k + sum (map (fun aq => fst aq * snd (snd aq)) ps).

Definition to_p0 p0 (ps : list (doc_regex * (doc_regex * doc_regex))) : list doc_regex :=
  map fst (filter (fun aq => if pair_dec (snd aq) p0 then true else false) ps).
Definition not_p0 p0 (ps : list (doc_regex * (doc_regex * doc_regex))) :=
  filter (fun aq => if pair_dec (snd aq) p0 then false else true) ps.

Lemma split_terms (h : doc_regex * doc_regex -> doc_regex) p0 ps :
  sum (map (fun aq => fst aq * h (snd aq)) ps) == sum (to_p0 p0 ps) * h p0 + sum (map (fun aq => fst aq * h (snd aq)) (not_p0 p0 ps)).
Proof.
  unfold to_p0, not_p0. induction ps as [| [a q] ps IH]; cbn [map filter fst snd].
  - cbn. rewrite law_empty_seq. symmetry. apply law_alt_same.
  - rewrite sum_cons, IH. destruct (pair_dec q p0) as [-> | N]; cbn [map fst snd]; rewrite !sum_cons.
    + rewrite law_alt_seq, law_alt_assoc. reflexivity.
    + rewrite !law_alt_assoc. apply alt_proper; [| reflexivity ]. apply law_alt_comm.
Qed.

Lemma to_p0_in p0 ps a : In a (to_p0 p0 ps) <-> In (a, p0) ps.
Proof.
  unfold to_p0. rewrite in_map_iff. split.
  - intros ([a' q] & <- & H). apply filter_In in H as [H E]. cbn in *. destruct (pair_dec q p0); [ subst; auto | discriminate ].
  - intros H. exists (a, p0). split; auto. apply filter_In. split; auto. cbn. destruct (pair_dec p0 p0); congruence.
Qed.

Lemma not_p0_in p0 ps a q : In (a, q) (not_p0 p0 ps) <-> In (a, q) ps /\ q <> p0.
Proof.
  unfold not_p0. rewrite filter_In. cbn. destruct (pair_dec q p0); intuition congruence.
Qed.

Lemma guarded_sum l : (forall a, In a l -> has_empty a = false) -> has_empty (sum l) = false.
Proof.
  induction l as [| x l IH]; intros H; [ reflexivity |]. rewrite sum_cons. cbn [has_empty]. rewrite (H x), IH; auto.
  - intros a Ha. apply H. right. auto.
  - left. auto.
Qed.

Lemma solve_one (h : doc_regex * doc_regex -> doc_regex) p0 k ps :
  (forall a q, In (a, q) ps -> has_empty a = false) ->
  h p0 == k + sum (map (fun aq => fst aq * h (snd aq)) ps) ->
  h p0 == DStar (sum (to_p0 p0 ps)) * k + sum (map (fun aq => (DStar (sum (to_p0 p0 ps)) * fst aq) * h (snd aq)) (not_p0 p0 ps)).
Proof.
  intros G E.
  assert (S : h p0 == DStar (sum (to_p0 p0 ps)) * (k + sum (map (fun aq => fst aq * h (snd aq)) (not_p0 p0 ps)))).
  { apply law_solve.
    - apply guarded_sum. intros a Ha. apply to_p0_in in Ha. eauto.
    - rewrite E at 1. rewrite (split_terms h p0). rewrite !law_alt_assoc. apply alt_proper; [| reflexivity ]. apply law_alt_comm. }
  rewrite S at 1. rewrite law_seq_alt. apply alt_proper; [ reflexivity |]. rewrite seq_sum, map_map.
  apply sum_map_law. intros aq _. apply law_seq_assoc.
Qed.

(** after eliminating [p0] *)
Lemma substitute (h : doc_regex * doc_regex -> doc_regex) p0 k0 ps0 k ps x :
  h p0 == k0 + sum (map (fun aq => fst aq * h (snd aq)) ps0) ->
  x == k + sum (map (fun aq => fst aq * h (snd aq)) ps) ->
  x == (k + sum (to_p0 p0 ps) * k0) +
       sum (map (fun aq => fst aq * h (snd aq)) (map (fun aq => (sum (to_p0 p0 ps) * fst aq, snd aq)) ps0 ++ not_p0 p0 ps)).
Proof.
  intros E0 E. rewrite E at 1. rewrite (split_terms h p0). rewrite E0 at 1. rewrite law_seq_alt, map_app, sum_app, map_map. cbn [fst snd].
  rewrite <- !law_alt_assoc. apply alt_proper; [ reflexivity |]. apply alt_proper; [ reflexivity |]. apply alt_proper; [| reflexivity ].
  rewrite seq_sum, map_map. apply sum_map_law. intros aq _. apply law_seq_assoc.
Qed.

Lemma unique_solutions P : (forall p, In p P -> K p -> combination P p) -> forall p, In p P -> K p -> fst p == snd p.
Proof.
  induction P as [| p0 P IH]; intros H p Hp Kp; [ contradiction |].
  (* the first pair as a combination of the others *)
  assert (H0 : K p0 -> exists k ps, (forall a q, In (a, q) ps -> has_empty a = false /\ In q P /\ K q) /\
    fst p0 == k + sum (map (fun aq => fst aq * fst (snd aq)) ps) /\ snd p0 == k + sum (map (fun aq => fst aq * snd (snd aq)) ps)).
  { intros K0. destruct (H p0 (or_introl eq_refl) K0) as (k & ps & G & E1 & E2).
    assert (G' : forall a q, In (a, q) ps -> has_empty a = false) by (intros a q Hq; apply (G a q Hq)).
    exists (DStar (sum (to_p0 p0 ps)) * k), (map (fun aq => (DStar (sum (to_p0 p0 ps)) * fst aq, snd aq)) (not_p0 p0 ps)).
    split; [| split ].
    - intros a q Hq. apply in_map_iff in Hq as ([a' q'] & E & Hq). injection E as <- <-. cbn [fst snd]. apply not_p0_in in Hq as [Hq N].
      destruct (G a' q' Hq) as (D1 & [D2 | D2] & D3); [ congruence |]. repeat split; auto.
    - rewrite map_map. cbn [fst snd]. apply (solve_one fst p0 k ps G' E1).
    - rewrite map_map. cbn [fst snd]. apply (solve_one snd p0 k ps G' E2). }
  assert (H1 : forall p, In p P -> K p -> combination P p).
  { intros q Hq Kq. destruct (H q (or_intror Hq) Kq) as (k & ps & G & E1 & E2).
    destruct (to_p0 p0 ps) as [| a0 A] eqn:EA.
    - exists k, ps. split; auto. intros a r Hr. destruct (G a r Hr) as (D1 & [D2 | D2] & D3); auto.
      subst. apply to_p0_in in Hr. rewrite EA in Hr. contradiction.
    - assert (K0 : K p0). { assert (I : In a0 (to_p0 p0 ps)) by (rewrite EA; left; auto). apply to_p0_in in I. apply (G a0 p0 I). }
      destruct (H0 K0) as (k0 & ps0 & G0 & F1 & F2).
      exists (k + sum (to_p0 p0 ps) * k0), (map (fun aq => (sum (to_p0 p0 ps) * fst aq, snd aq)) ps0 ++ not_p0 p0 ps).
      split; [| split ].
      + intros a r Hr. apply in_app_iff in Hr as [Hr | Hr].
        * apply in_map_iff in Hr as ([a' q'] & E & Hr). injection E as <- <-. destruct (G0 a' q' Hr) as (D1 & D2 & D3).
          cbn [fst snd]. repeat split; auto. cbn [has_empty]. rewrite D1. apply andb_false_r.
        * apply not_p0_in in Hr as [Hr N]. destruct (G a r Hr) as (D1 & [D2 | D2] & D3); [ congruence | auto ].
      + apply (substitute fst p0 k0 ps0 k ps); auto.
      + apply (substitute snd p0 k0 ps0 k ps); auto. }
  specialize (IH H1). destruct Hp as [-> | Hp]; [| auto ].
  destruct (H0 Kp) as (k & ps & G & E1 & E2). rewrite E1, E2. apply alt_proper; [ reflexivity |].
  apply sum_map_law. intros [a q] Hq. cbn [fst snd]. destruct (G a q Hq) as (_ & D & D3). rewrite (IH q D D3). reflexivity.
Qed.
End Systems.

(** ** Every expression solves a finite system *)

Definition opt (b : bool) : doc_regex := if b then DEps else DEmpty.
Definition terms (ps : list (str * doc_regex)) : doc_regex := sum (map (fun ay => DSym (fst ay) * snd ay) ps).

Definition steps (al : list str) (xs : list doc_regex) (x : doc_regex) : Prop :=
  exists b ps, (forall a y, In (a, y) ps -> In a al /\ In y xs) /\ x == opt b + terms ps.

Definition closed (al : list str) (xs : list doc_regex) : Prop := forall x, In x xs -> steps al xs x.

Lemma steps_mono al al' xs xs' x : incl al al' -> incl xs xs' -> steps al xs x -> steps al' xs' x.
Proof. intros H1 H2 (b & ps & G & E). exists b, ps. split; auto. intros a y H. apply G in H as [D1 D2]. auto. Qed.

Lemma steps_law al xs x y : x == y -> steps al xs y -> steps al xs x.
Proof. intros H (b & ps & G & E). exists b, ps. split; auto. rewrite H. auto. Qed.

Lemma terms_app l1 l2 : terms (l1 ++ l2) == terms l1 + terms l2.
Proof. unfold terms. rewrite map_app. apply sum_app. Qed.

Lemma opt_or b c : opt (b || c) == opt b + opt c.
Proof.
  destruct b, c; cbn.
  - symmetry. apply law_alt_same.
  - symmetry. apply alt_empty_r.
  - symmetry. apply law_alt_empty.
  - symmetry. apply law_alt_empty.
Qed.

Lemma terms_seq ps e : terms ps * e == terms (map (fun ay => (fst ay, snd ay * e)) ps).
Proof.
  unfold terms. rewrite sum_seq, !map_map. apply sum_map_law. intros ay _. cbn [fst snd]. symmetry. apply law_seq_assoc.
Qed.

Lemma steps_alt al xs x y : steps al xs x -> steps al xs y -> steps al xs (x + y).
Proof.
  intros (b & ps & G & E) (b' & ps' & G' & E'). exists (b || b'), (ps ++ ps'). split.
  - intros a z H. apply in_app_iff in H as [H | H]; auto.
  - rewrite E, E', opt_or, terms_app. rewrite <- !law_alt_assoc. apply alt_proper; [ reflexivity |].
    rewrite !law_alt_assoc. apply alt_proper; [| reflexivity ]. apply law_alt_comm.
Qed.

(** [x·e], when [x] steps within [xs], and [e] within [ys] *)
Lemma steps_seq al xs ys x e : steps al xs x -> steps al ys e -> incl (map (fun y => y * e) xs) ys -> steps al ys (x * e).
Proof.
  intros (b & ps & G & E) He I.
  assert (T : steps al ys (terms ps * e)).
  { exists false, (map (fun ay => (fst ay, snd ay * e)) ps). split.
    - intros a y H. apply in_map_iff in H as ([a' y'] & F & H). injection F as <- <-. apply G in H as [D1 D2]. cbn [fst snd]. split; auto.
      apply I, in_map_iff. eauto.
    - cbn [opt]. rewrite law_alt_empty. apply terms_seq. }
  destruct b; cbn [opt] in E.
  - apply (steps_law _ _ _ (e + terms ps * e)). { rewrite E, law_alt_seq, law_eps_seq. reflexivity. } apply steps_alt; auto.
  - apply (steps_law _ _ _ (terms ps * e)); auto. rewrite E, law_alt_empty. reflexivity.
Qed.

Lemma steps_star al xs ys a : steps al xs a -> incl (map (fun y => y * DStar a) xs) ys -> steps al ys (DStar a).
Proof.
  intros (b & ps & G & E) I. exists true, (map (fun ay => (fst ay, snd ay * DStar a)) ps). split.
  - intros c y H. apply in_map_iff in H as ([a' y'] & F & H). injection F as <- <-. apply G in H as [D1 D2]. cbn [fst snd]. split; auto.
    apply I, in_map_iff. eauto.
  - rewrite <- terms_seq. cbn [opt].
    assert (S : DStar a == DStar (terms ps)).
    { rewrite E. destruct b; cbn [opt]; [ apply law_star_eps | rewrite law_alt_empty; reflexivity ]. }
    rewrite S. apply law_star.
Qed.

Lemma expression_closed e : exists xs, In e xs /\ closed (doc_symbols e) xs.
Proof.
  induction e as [ | | g | a IHa b IHb | a IHa b IHb | a IHa | a IHa ]; cbn [doc_symbols].
  - exists [DEmpty]. split; [ left; auto |]. intros x [<- | []]. exists false, []. split; [ contradiction |]. symmetry. apply law_alt_same.
  - exists [DEps]. split; [ left; auto |]. intros x [<- | []]. exists true, []. split; [ contradiction |]. symmetry. apply alt_empty_r.
  - exists [DSym g; DEps]. split; [ left; auto |]. intros x [<- | [<- | []]].
    + exists false, [(g, DEps)]. split. { intros a y [E | []]. injection E as <- <-. cbn. auto. }
      unfold terms. cbn. rewrite law_alt_empty, alt_empty_r, law_seq_eps. reflexivity.
    + exists true, []. split; [ contradiction |]. symmetry. apply alt_empty_r.
  - destruct IHa as (xs & Ia & Ca), IHb as (ys & Ib & Cb). exists (map (fun y => y * b) xs ++ ys). split.
    + apply in_app_iff. left. apply in_map_iff. eauto.
    + assert (M : forall y, In y ys -> steps (doc_symbols a ++ doc_symbols b) (map (fun y => y * b) xs ++ ys) y).
      { intros y Hy. apply (steps_mono (doc_symbols b) _ ys); auto using incl_appr, incl_refl. }
      intros x Hx. apply in_app_iff in Hx as [Hx | Hx]; auto.
      apply in_map_iff in Hx as (y & <- & Hy). apply (steps_seq _ xs); auto using incl_appl, incl_refl.
      apply (steps_mono (doc_symbols a) _ xs); auto using incl_appl, incl_refl.
  - destruct IHa as (xs & Ia & Ca), IHb as (ys & Ib & Cb). exists ((a + b) :: xs ++ ys). split; [ left; auto |].
    assert (M : forall x, In x (xs ++ ys) -> steps (doc_symbols a ++ doc_symbols b) ((a + b) :: xs ++ ys) x).
    { intros x Hx. apply in_app_iff in Hx as [Hx | Hx].
      - apply (steps_mono (doc_symbols a) _ xs); auto using incl_appl, incl_tl, incl_refl.
      - apply (steps_mono (doc_symbols b) _ ys); auto using incl_appr, incl_tl, incl_refl. }
    intros x [<- | Hx]; auto. apply steps_alt; apply M, in_app_iff; auto.
  - destruct IHa as (xs & Ia & Ca). set (ys := DStar a :: map (fun y => y * DStar a) xs). exists ys. split; [ left; auto |].
    assert (I : incl (map (fun y => y * DStar a) xs) ys) by (apply incl_tl, incl_refl).
    assert (S : steps (doc_symbols a) ys (DStar a)) by (apply (steps_star _ xs); auto).
    intros x [<- | Hx]; auto. apply in_map_iff in Hx as (y & <- & Hy). apply (steps_seq _ xs); auto.
  - destruct IHa as (xs & Ia & Ca). set (ys := DPlus a :: DStar a :: map (fun y => y * DStar a) xs). exists ys. split; [ left; auto |].
    assert (I : incl (map (fun y => y * DStar a) xs) ys) by (apply incl_tl, incl_tl, incl_refl).
    assert (S : steps (doc_symbols a) ys (DStar a)) by (apply (steps_star _ xs); auto).
    intros x [<- | [<- | Hx]]; auto.
    + apply (steps_law _ _ _ (a * DStar a)); [ apply law_plus |]. apply (steps_seq _ xs); auto.
    + apply in_map_iff in Hx as (y & <- & Hy). apply (steps_seq _ xs); auto.
Qed.

(** ** Determinization *)

Definition regex_dec : forall x y : doc_regex, {x = y} + {x <> y}.
Proof. repeat decide equality. Qed.

Fixpoint sublists {A} (l : list A) : list (list A) :=
  match l with
  | [] => [[]]
  | x :: l => sublists l ++ map (cons x) (sublists l)
  end.

Lemma filter_sublist {A} (f : A -> bool) l : In (filter f l) (sublists l).
Proof.
  induction l as [| x l IH]; cbn [filter sublists]; [ left; auto |]. apply in_app_iff. destruct (f x); auto.
  right. apply in_map. auto.
Qed.

Lemma sublist_incl {A} (l s : list A) : In s (sublists l) -> incl s l.
Proof.
  revert s. induction l as [| x l IH]; intros s; cbn [sublists].
  - intros [<- | []] y [].
  - intros H. apply in_app_iff in H as [H | H]; [ apply incl_tl; auto |].
    apply in_map_iff in H as (s' & <- & H). intros y [-> | Hy]; [ left; auto | right; apply (IH s'); auto ].
Qed.

Definition det_steps (al : list str) (ds : list doc_regex) (x : doc_regex) : Prop :=
  exists b f, (forall a, In a al -> In (f a) ds) /\ x == opt b + terms (map (fun a => (a, f a)) al).

Lemma steps_sum al xs s : closed al xs -> incl s xs -> steps al xs (sum s).
Proof.
  intros C. induction s as [| x s IH]; intros H.
  - exists false, []. split; [ contradiction |]. symmetry. apply law_alt_same.
  - rewrite sum_cons. apply steps_alt; [ apply C, H; left; auto | apply IH; intros y Hy; apply H; right; auto ].
Qed.

Definition str_dec : forall x y : str, {x = y} + {x <> y}.
Proof. repeat decide equality. Qed.

(** what [a] leads to *)
Definition after (ps : list (str * doc_regex)) (a : str) : list doc_regex :=
  map snd (filter (fun ay => if str_dec (fst ay) a then true else false) ps).

Lemma after_in ps a y : In y (after ps a) <-> In (a, y) ps.
Proof.
  unfold after. rewrite in_map_iff. split.
  - intros ([a' q] & <- & H). apply filter_In in H as [H E]. cbn in *. destruct (str_dec a' a); [ subst; auto | discriminate ].
  - intros H. exists (a, y). split; auto. apply filter_In. split; auto. cbn. destruct (str_dec a a); congruence.
Qed.

Lemma group_terms al ps : (forall a y, In (a, y) ps -> In a al) ->
  terms ps == terms (map (fun a => (a, sum (after ps a))) al).
Proof.
  intros H. unfold terms. rewrite map_map. cbn [fst snd].
  rewrite (sum_map_law (fun a => DSym a * sum (after ps a)) (fun a => sum (map (fun y => DSym a * y) (after ps a))));
    [| intros a _; apply seq_sum ].
  rewrite <- sum_flat_map. apply sum_same. intros z. rewrite in_map_iff, in_flat_map. split.
  - intros ([a y] & <- & Hy). exists a. split; [ eauto |]. apply in_map_iff. exists y. split; auto. apply after_in. auto.
  - intros (a & _ & Hz). apply in_map_iff in Hz as (y & <- & Hy). apply after_in in Hy. exists (a, y). auto.
Qed.

Lemma terms_law al f g : (forall a, In a al -> f a == g a) -> terms (map (fun a => (a, f a)) al) == terms (map (fun a => (a, g a)) al).
Proof.
  intros H. unfold terms. rewrite !map_map. cbn [fst snd]. apply sum_map_law. intros a Ha. rewrite (H a Ha). reflexivity.
Qed.

Lemma deterministic al xs : closed al xs -> forall x, In x (map sum (sublists xs)) -> det_steps al (map sum (sublists xs)) x.
Proof.
  intros C x Hx. apply in_map_iff in Hx as (s & <- & Hs). destruct (steps_sum al xs s C (sublist_incl _ _ Hs)) as (b & ps & G & E).
  exists b, (fun a => sum (filter (fun y => if in_dec regex_dec y (after ps a) then true else false) xs)). split.
  - intros a _. apply in_map, filter_sublist.
  - rewrite E. apply alt_proper; [ reflexivity |]. rewrite (group_terms al ps); [| intros a y H; apply (G a y H) ].
    apply terms_law. intros a _. apply sum_same. intros y. rewrite filter_In. destruct (in_dec regex_dec y (after ps a)) as [I | I].
    + split; auto. intros _. split; auto. apply after_in in I. apply (G a y I).
    + split; [ contradiction | intros [_ D]; discriminate ].
Qed.

Lemma det_in xs x : In x xs -> exists y, In y (map sum (sublists xs)) /\ x == y.
Proof.
  intros H. exists (sum (filter (fun y => if regex_dec y x then true else false) xs)). split; [ apply in_map, filter_sublist |].
  rewrite (sum_same (filter _ xs) [x]); [ symmetry; apply alt_empty_r |]. intros z. rewrite filter_In. cbn.
  destruct (regex_dec z x) as [-> | N]; intuition congruence.
Qed.

(** ** Completeness *)

Lemma lang_det b (f : str -> doc_regex) al w : doc_lang (opt b + terms (map (fun a => (a, f a)) al)) w <->
  match w with [] => b = true | a :: w' => In a al /\ doc_lang (f a) w' end.
Proof.
  rewrite lang_alt. unfold terms. rewrite lang_sum. split.
  - intros [H | (e & H & D)].
    + destruct b; cbn in H; [ apply lang_eps in H; subst; auto | inversion H ].
    + rewrite map_map in H. apply in_map_iff in H as (a & <- & H). cbn in D. apply lang_seq in D as (w1 & w2 & -> & D1 & D2).
      apply lang_sym in D1. subst. cbn. auto.
  - destruct w as [| a w].
    + intros ->. left. constructor.
    + intros [H1 H2]. right. exists (DSym a * f a). split; [ rewrite map_map; apply in_map_iff; exists a; auto |].
      apply lang_seq. exists [a], w. repeat split; auto. constructor.
Qed.

Definition equal_pair (p : doc_regex * doc_regex) : Prop := same_lang (fst p) (snd p).

Lemma det_unique al ds1 ds2 : (forall x, In x ds1 -> det_steps al ds1 x) -> (forall x, In x ds2 -> det_steps al ds2 x) ->
  forall x y, In x ds1 -> In y ds2 -> same_lang x y -> x == y.
Proof.
  intros C1 C2 x y Hx Hy H.
  apply (unique_solutions equal_pair (list_prod ds1 ds2)) with (p := (x, y)); [| apply in_prod; auto | exact H ].
  intros [u v] Hp Kp. apply in_prod_iff in Hp as [Hu Hv].
  destruct (C1 u Hu) as (b & f & F1 & E1), (C2 v Hv) as (c & g & G1 & E2).
  assert (S : forall w, match w with [] => b = true | a :: w' => In a al /\ doc_lang (f a) w' end <->
                        match w with [] => c = true | a :: w' => In a al /\ doc_lang (g a) w' end).
  { intros w. rewrite <- (lang_det b f al w), <- (lang_det c g al w), <- (law_sound _ _ E1 w), <- (law_sound _ _ E2 w). apply Kp. }
  assert (Ebc : b = c). { specialize (S []). cbn in S. destruct b, c; intuition congruence. }
  subst c. exists (opt b), (map (fun a => (DSym a, (f a, g a))) al). split; [| split ].
  - intros a q Hq. apply in_map_iff in Hq as (a' & E & Ha). injection E as <- <-. repeat split.
    + apply in_prod; auto.
    + intros Hw. apply (S (a' :: w)). auto.
    + intros Hw. apply (S (a' :: w)). auto.
  - cbn [fst snd]. rewrite E1. unfold terms. rewrite !map_map. reflexivity.
  - cbn [fst snd]. rewrite E2. unfold terms. rewrite !map_map. reflexivity.
Qed.

Theorem law_complete a b : same_lang a b -> a == b.
Proof.
  intros H. destruct (expression_closed a) as (xs & Ia & Ca), (expression_closed b) as (ys & Ib & Cb).
  set (al := doc_symbols a ++ doc_symbols b).
  assert (Ca' : closed al xs) by (intros x Hx; apply (steps_mono (doc_symbols a) _ xs); try unfold al; auto using incl_refl, incl_appl).
  assert (Cb' : closed al ys) by (intros x Hx; apply (steps_mono (doc_symbols b) _ ys); try unfold al; auto using incl_refl, incl_appr).
  destruct (det_in xs a Ia) as (x & Hx & Ex), (det_in ys b Ib) as (y & Hy & Ey).
  rewrite Ex, Ey. apply (det_unique al _ _ (deterministic al xs Ca') (deterministic al ys Cb')); auto.
  intros w. rewrite <- (law_sound _ _ Ex w), <- (law_sound _ _ Ey w). auto.
Qed.

Theorem law_exact a b : a == b <-> forall w, doc_lang a w <-> doc_lang b w.
Proof. split; [ apply law_sound | apply law_complete ]. Qed.
