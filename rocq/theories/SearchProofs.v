(** * Correctness of the generic worklist loop *)
From Coq Require Import List Arith Bool Lia Permutation.
From Verif Require Import Base BaseLemmas Search.
Import ListNotations.

Section SearchProofs.
  Context {T K D : Type} `{Eqb K}.
  Variable key : T -> K.
  Variable visit : T -> R (option (D * list T)).
  Variable Good : T -> Prop.
  Variable U : list K.
  Hypothesis Good_key : forall t, Good t -> In (key t) U.
  Hypothesis Good_visit :
    forall t, Good t -> exists r, visit t = Ret r /\ match r with None => True | Some (_, succs) => Forall Good succs end.

  (** Items that the loop may meet *)
  Inductive reach (t0 : T) : T -> Prop :=
  | reach_refl : reach t0 t0
  | reach_step t d succs t' : reach t0 t -> visit t = Ret (Some (d, succs)) -> In t' succs -> reach t0 t'.

  Lemma reach_Good t0 t : Good t0 -> reach t0 t -> Good t.
  Proof.
    intros H0. induction 1 as [|t d succs t' Hr IH Hv Hin]; auto.
    destruct (Good_visit t IH) as (r & Hr' & Hs). rewrite Hv in Hr'. inv Hr'. rewrite Forall_forall in Hs; auto.
  Qed.

  Lemma push_new_fold succs rest seen :
    NoDup seen ->
    exists new, fold_left (push_new key) succs (rest, seen) = (rest ++ new, seen ++ map key new) /\
                NoDup (seen ++ map key new) /\ incl new succs /\
                (forall t, In t succs -> In (key t) (seen ++ map key new)).
  Proof.
    revert rest seen; induction succs as [|t ts IH]; intros rest seen Hnd; simpl.
    - exists []. simpl. rewrite !app_nil_r. repeat split; auto. intros x []. intros t [].
    - unfold push_new at 2. simpl. destruct (hs_insert (key t) seen) as [seen' ins] eqn:Ei.
      unfold hs_insert in Ei. destruct (mem_spec (key t) seen) as [Hm|Hm]; injection Ei as <- <-; simpl.
      + destruct (IH rest seen Hnd) as (new & He & Hn & Hi & Hall). exists new. split; auto. split; auto.
        split; [intros x Hx; right; auto|]. intros x [->|Hx]; auto. apply in_app_iff; auto.
      + destruct (IH (rest ++ [t]) (seen ++ [key t])) as (new & He & Hn & Hi & Hall); [apply NoDup_snoc; auto|].
        exists (t :: new). rewrite He, <- !app_assoc. simpl. split; auto. rewrite <- app_assoc in Hn. simpl in Hn.
        split; auto. split; [intros x [->|Hx]; [left|right]; auto|].
        intros x [->|Hx].
        * apply in_app_iff; right; left; auto.
        * apply Hall in Hx. rewrite <- app_assoc in Hx. auto.
  Qed.

  (** Loop invariant *)
  Record search_inv (t0 : T) (done : list T) (st : list T * list K * list D) : Prop := {
    si_hd : match done with [] => fst (fst st) = [t0] | t :: _ => t = t0 end;
    si_nodup : NoDup (snd (fst st));
    si_perm : Permutation (snd (fst st)) (map key (done ++ fst (fst st)));
    si_reach : Forall (reach t0) (done ++ fst (fst st));
    si_out : Forall2 (fun t d => exists succs, visit t = Ret (Some (d, succs)) /\
                                          forall t', In t' succs -> In (key t') (snd (fst st))) done (snd st)
  }.

  Theorem search_spec k t0 :
    Good t0 -> 2 * length U <= 2 ^ k ->
    exists r, search key visit k t0 = Ret r /\
      match r with
      | None => exists t, reach t0 t /\ visit t = Ret None
      | Some (seen, out) =>
          exists done, hd_error done = Some t0 /\ NoDup (map key done) /\ Permutation seen (map key done) /\
                       Forall (reach t0) done /\
                       Forall2 (fun t d => exists succs, visit t = Ret (Some (d, succs)) /\
                                              forall t', In t' succs -> In (key t') (map key done)) done out
      end.
  Proof.
    intros H0 Hk. unfold search.
    pose (Inv := fun st => exists done, search_inv t0 done st).
    pose (m := fun st : list T * list K * list D => 2 * (length U - length (snd (fst st))) + length (fst (fst st))).
    assert (Hkeys : forall done st, search_inv t0 done st -> incl (snd (fst st)) U).
    { intros done st Hi x Hx. eapply Permutation_in in Hx; [|apply (si_perm _ _ _ Hi)].
      apply in_map_iff in Hx as (t & <- & Ht). apply Good_key. apply reach_Good with t0; auto.
      pose proof (si_reach _ _ _ Hi) as HF. rewrite Forall_forall in HF; auto. }
    apply while_total with (Inv := Inv) (m := m).
    - intros [[stack seen] out] [done Hi]. unfold search_step.
      destruct (pop stack) as [[rest t]|] eqn:Ep.
      + apply pop_Some in Ep. subst stack.
        assert (Hrt : reach t0 t).
        { pose proof (si_reach _ _ _ Hi) as HF. rewrite Forall_forall in HF. apply HF. simpl.
          rewrite !in_app_iff. right; right; left; auto. }
        destruct (Good_visit t) as (v & Hv & Hs); [eapply reach_Good; eauto|]. rewrite Hv; simpl.
        destruct v as [[d succs]|].
        * destruct (push_new_fold succs rest seen) as (new & He & Hn & Hincl & Hall); [apply (si_nodup _ _ _ Hi)|].
          rewrite He. eexists; split; [reflexivity|].
          pose proof Hi as Hi'.
          destruct Hi as [Hhd Hnd Hpm Hre Hou]; simpl in *.
          assert (Hinv : search_inv t0 (done ++ [t]) (rest ++ new, seen ++ map key new, out ++ [d])).
          { constructor; simpl.
            - destruct done; simpl in *; auto.
              change [t0] with ([] ++ [t0]) in Hhd. apply app_inj_tail in Hhd as [-> ->]. auto.
            - auto.
            - rewrite Hpm. rewrite !map_app. simpl. rewrite <- !app_assoc. apply Permutation_app_head.
              rewrite !app_assoc. apply Permutation_app_tail. apply Permutation_app_comm.
            - rewrite Forall_forall in *. intros x Hx. rewrite !in_app_iff in Hx.
              assert (Hnew : In x new -> reach t0 x) by (intros; eapply reach_step; eauto).
              destruct Hx as [[Hx|[<-|[]]]|[Hx|Hx]]; auto; apply Hre; rewrite !in_app_iff; auto.
            - apply Forall2_app.
              + eapply Forall2_impl; [|exact Hou]. simpl. intros a b (sc & Hsc & Hall'). exists sc; split; auto.
                intros; apply in_app_iff; auto.
              + constructor; auto. exists succs; auto. }
          split; [exists (done ++ [t]); auto|].
          pose proof (NoDup_incl_length Hnd (Hkeys _ _ Hi')) as L1.
          pose proof (NoDup_incl_length Hn (Hkeys _ _ Hinv)) as L2.
          unfold m; simpl. rewrite !app_length, map_length in *. simpl. lia.
        * eexists; split; [reflexivity|]. simpl. exists t; auto.
      + apply pop_None in Ep. subst stack. eexists; split; [reflexivity|].
        destruct Hi as [Hhd Hnd Hpm Hre Hou]; simpl in *. rewrite app_nil_r in *.
        exists done. split; [|split; [|split; [|split]]]; auto.
        * destruct done; simpl in *; [discriminate|]. congruence.
        * eapply Permutation_NoDup; eauto.
        * eapply Forall2_impl; [|exact Hou]. simpl. intros a b (sc & Hsc & Hall'). exists sc; split; auto.
          intros; eapply Permutation_in; eauto.
    - exists []. constructor; simpl; auto.
      + repeat constructor; simpl; tauto.
      + repeat constructor.
    - unfold m; simpl. assert (In (key t0) U) by auto. destruct U; simpl in *; [tauto|]. lia.
  Qed.
End SearchProofs.
