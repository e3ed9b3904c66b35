(** * CutProductProofs: tables of products whose end is missing *)
From Coq Require Import List NArith Arith Bool Lia.
From Verif Require Import Base BaseLemmas Spec ReproSpec ReproProofs TableSpec LayoutSpec DfaModel DfaBasics DfaEquiv ValidateModel TableModel ApiModel ApiProofs
  Prop_Dfa WriteSpec ByteModel ByteSpec ByteProofs CutSpec CutProofs CutNfaProofs.
Import ListNotations.

Lemma pair_apart a b a' b' y : ~ In 41%N a' -> ~ In 41%N b' -> pair_name a' b' = pair_name a b ++ y -> y = [].
Proof.
  intros A B E. destruct (last_case y) as [|(z & c & ->)]; auto. exfalso. unfold pair_name in E.
  assert (X : ([40%N] ++ a' ++ [44%N] ++ b') ++ [41%N] = (([40%N] ++ a ++ [44%N] ++ b ++ [41%N]) ++ z) ++ [c]) by (rewrite <- !app_assoc in *; exact E).
  apply app_inj_tail in X as [X _]. assert (I : In 41%N ([40%N] ++ a' ++ [44%N] ++ b')).
  { rewrite X. apply in_or_app. left. apply in_or_app. right. apply in_or_app. right. apply in_or_app. right. apply in_or_app. right. left. auto. }
  cbn in I. destruct I as [I|I]; [discriminate|]. apply in_app_or in I as [I|[I|I]]; auto. discriminate.
Qed.
Lemma product_names_pairs h d1 d2 c d : dfa_valid d1 -> dfa_valid d2 -> no_comma (map ds_name (dfa_states d1)) \/ no_comma (map ds_name (dfa_states d2)) ->
  dfa_product_construction h d1 d2 c = Ret (Some d) -> forall s, In s (dfa_states d) -> exists s1 s2, In s1 (dfa_states d1) /\ In s2 (dfa_states d2) /\
    ds_name s = pair_name (ds_name s1) (ds_name s2).
Proof.
  intros V1 V2 Hc Hd s Hs. destruct (alphabet_equal_spec _ _ (dv_alphabet _ V1) (dv_alphabet _ V2)) as [Ha|Ha].
  2:{ rewrite dfa_product_none in Hd by auto. discriminate. }
  destruct (dfa_product_construction_correct h d1 d2 c V1 V2 Ha) as (d' & ks & Hd' & V & HP). rewrite Hd in Hd'. injection Hd' as <-.
  assert (Hst : forall q1 q2, In (q1, q2) ks -> exists s1 s2, nth_error (dfa_states d1) q1 = Some s1 /\ nth_error (dfa_states d2) q2 = Some s2).
  { intros q1 q2 Hq. apply (dp_reach _ _ _ _ _ HP) in Hq as (w & P1 & P2).
    destruct (nth_error_lt (dfa_states d1) q1) as [s1 H1]; [eapply dfa_path_range; eauto; apply V1|].
    destruct (nth_error_lt (dfa_states d2) q2) as [s2 H2]; [eapply dfa_path_range; eauto; apply V2|]. eauto. }
  assert (U : forall d q q' s s', dfa_valid d -> nth_error (dfa_states d) q = Some s -> nth_error (dfa_states d) q' = Some s' -> ds_name s = ds_name s' -> q = q').
  { intros e q q' x x' Ve H H' En. apply (NoDup_nth_error_inj _ _ _ (ds_name x) (dv_names _ Ve)); rewrite nth_error_map, ?H, ?H'; simpl; congruence. }
  assert (Nd : NoDup (map (dfa_pair_name d1 d2) ks)).
  { pose proof (dp_nodup _ _ _ _ _ HP) as Hk. clear - Hk Hst Hc U V1 V2. induction Hk as [|x l Hx Hk IH]; simpl; constructor.
    - intros Hin. apply in_map_iff in Hin as (y & E & Hy). apply Hx. replace x with y; auto. destruct x as [p1 p2], y as [q1 q2].
      destruct (Hst p1 p2) as (s1 & s2 & H1 & H2); [left; auto|]. destruct (Hst q1 q2) as (s3 & s4 & H3 & H4); [right; auto|].
      unfold dfa_pair_name in E. cbn [fst snd] in E. rewrite H1, H2, H3, H4 in E. apply pair_name_inj in E as [E1 E2].
      + f_equal; eauto.
      + destruct Hc as [Hc|Hc]; [left|right]; split; apply Hc; apply in_map; eapply nth_error_In; eauto.
    - apply IH. intros; apply Hst; simpl; auto. }
  destruct (dp_names _ _ _ _ _ HP) as [Hn|[Hn _]]; [|tauto]. apply In_nth_error in Hs as [i Hi].
  destruct (nth_error ks i) as [[q1 q2]|] eqn:Ei.
  - destruct (Hst q1 q2) as (s1 & s2 & H1 & H2); [eapply nth_error_In; eauto|]. exists s1, s2. split; [eapply nth_error_In; eauto|]. split; [eapply nth_error_In; eauto|].
    rewrite (Hn _ _ _ Ei Hi). unfold dfa_pair_name. cbn [fst snd]. rewrite H1, H2. auto.
  - apply nth_error_None in Ei. rewrite <- (dp_length _ _ _ _ _ HP) in Ei. apply nth_error_length in Hi. lia.
Qed.
Lemma product_apart h d1 d2 c d : dfa_valid d1 -> dfa_valid d2 -> no_comma (map ds_name (dfa_states d1)) \/ no_comma (map ds_name (dfa_states d2)) ->
  (forall s, In s (dfa_states d1) \/ In s (dfa_states d2) -> ~ In 41%N (ds_name s)) -> dfa_product_construction h d1 d2 c = Ret (Some d) ->
  apart (map ds_name (dfa_states d)).
Proof.
  intros V1 V2 Hc Hp Hd m y Hm Hy. apply in_map_iff in Hm as (s & <- & Hs), Hy as (s' & E & Hs').
  destruct (product_names_pairs h d1 d2 c d V1 V2 Hc Hd s Hs) as (s1 & s2 & _ & _ & N). destruct (product_names_pairs h d1 d2 c d V1 V2 Hc Hd s' Hs') as (s3 & s4 & I3 & I4 & N').
  rewrite N, N' in E. apply (pair_apart (ds_name s1) (ds_name s2) (ds_name s3) (ds_name s4)); auto.
Qed.
Theorem cut_product h d1 d2 c d table l l' u : dfa_valid d1 -> dfa_valid d2 -> dfa_alphabet d1 <> [] -> Forall legal_token (dfa_alphabet d1) -> dnames_legal d1 -> dnames_legal d2 ->
  no_comma (map ds_name (dfa_states d1)) \/ no_comma (map ds_name (dfa_states d2)) ->
  (forall s, In s (dfa_states d1) \/ In s (dfa_states d2) -> ~ In 41%N (ds_name s)) -> dfa_product_construction h d1 d2 c = Ret (Some d) ->
  dfa_to_table d = Ret table -> rust_text table -> utf8 table l -> prefix_of l' l -> from_utf8 l' = Some u -> load_dfa u = Ret None \/ load_dfa u = Ret (Some d).
Proof.
  intros V1 V2 Na A N1 N2 Hc Hp Hd E Rt U P F. pose proof (product_apart h d1 d2 c d V1 V2 Hc Hp Hd) as Ap. pose proof (dfa_product_legal h d1 d2 c d V1 V2 Hd N1 N2) as N.
  destruct (C24_dfa_product h d1 d2 c V1 V2) as (r & E' & _ & H). rewrite Hd in E'. injection E' as <-. destruct (H d eq_refl) as (V & Ea & R & _).
  rewrite <- Ea in Na, A. destruct (cut_bytes d table l l' u V Na A N Ap E Rt U P F) as [|(d' & L & _ & _ & S)]; auto. right. rewrite (S R) in L. auto.
Qed.
