(** * Breadth-first closure loops
    The three reachability loops of the library (DFA reachability, NFA reachability, epsilon closure) share this
    argument. *)
From Coq Require Import List Arith Bool Lia Permutation.
From Verif Require Import Base BaseLemmas.
Import ListNotations.

Inductive star (E : nat -> nat -> Prop) (x : nat) : nat -> Prop :=
| star_refl : star E x x
| star_step y z : star E x y -> E y z -> star E x z.

Lemma star_trans E x y z : star E x y -> star E y z -> star E x z.
Proof. intros H1. induction 1; auto. econstructor; eauto. Qed.

Lemma star_head (E : nat -> nat -> Prop) x y z : E x y -> star E y z -> star E x z.
Proof. intros H1 H2. eapply star_trans; [|eauto]. econstructor; [constructor|auto]. Qed.

Lemma bfs_total {S} (step : S -> R (S + list nat)) (all new : S -> list nat) (E : nat -> nat -> Prop) n start s0 k :
  (forall s, new s = [] -> step s = Ret (inr (all s))) ->
  (forall s, new s <> [] -> NoDup (all s) -> Forall (fun q => q < n) (new s) ->
     exists s' nw, step s = Ret (inl s') /\ new s' = nw /\ all s' = all s ++ nw /\ NoDup (all s ++ nw) /\
                   forall x, In x nw <-> (exists q, In q (new s) /\ E q x) /\ ~ In x (all s)) ->
  (forall q x, q < n -> E q x -> x < n) ->
  start < n -> all s0 = [start] -> new s0 = [start] -> n < 2 ^ k ->
  exists r, while k step s0 = Ret r /\ NoDup r /\ forall x, In x r <-> star E start x.
Proof.
  intros Hend Hstep Hrange Hstart Hall0 Hnew0 Hk.
  pose (Inv := fun s => NoDup (all s) /\ incl (new s) (all s) /\ In start (all s) /\
                        (forall x, In x (all s) -> star E start x /\ x < n) /\
                        (forall q, In q (all s) -> In q (new s) \/ forall x, E q x -> In x (all s))).
  pose (m := fun s => match new s with [] => 0 | _ => Datatypes.S (n - length (all s)) end).
  destruct (while_total Inv (fun r => NoDup r /\ forall x, In x r <-> star E start x) m step k s0) as (r & Hr & HQ).
  - intros s (Hnd & Hincl & Hst & Hs & Hcl).
    destruct (new s) as [|q0 qs] eqn:En.
    + rewrite Hend by auto. eexists; split; [reflexivity|]. split; auto. intros x. split.
      * intros Hx; apply Hs; auto.
      * induction 1 as [|y z Hy IH Hyz]; auto. destruct (Hcl y IH) as [[]|Hc]; auto.
    + destruct (Hstep s) as (s' & nw & He & Hn' & Ha' & Hnd' & Hx).
      * rewrite En; discriminate.
      * auto.
      * rewrite En. apply Forall_forall. intros q Hq. apply Hs, Hincl; auto.
      * rewrite En in Hx. rewrite He. eexists; split; [reflexivity|]. simpl.
        assert (Hn : forall x, In x (all s ++ nw) -> star E start x /\ x < n).
        { intros x Hin. apply in_app_iff in Hin as [Hin|Hin]; auto.
          apply Hx in Hin as [(q & Hq & Hqx) _]. destruct (Hs q (Hincl q Hq)) as [H1 H2].
          split; [econstructor; eauto|eapply Hrange; eauto]. }
        assert (Hlen : length (all s ++ nw) <= n).
        { rewrite <- (seq_length n 0). apply NoDup_incl_length; auto. intros x Hin. apply in_seq.
          apply Hn in Hin. lia. }
        split.
        -- unfold Inv. rewrite Ha', Hn'. split; [auto|]. split; [|split; [|split]].
           ++ intros x Hin. apply in_app_iff; auto.
           ++ apply in_app_iff; auto.
           ++ auto.
           ++ intros q Hq. apply in_app_iff in Hq as [Hq|Hq]; [|auto].
              right. intros x Hqx. apply in_app_iff.
              destruct (In_dec x (all s)) as [Hi|Hi]; auto. right.
              destruct (Hcl q Hq) as [Hq'|Hc]; [|exfalso; apply Hi; auto].
              apply Hx. split; eauto.
        -- unfold m. rewrite Hn', En, Ha'. rewrite app_length in *. destruct nw; simpl in *; lia.
  - unfold Inv. rewrite Hall0, Hnew0. split; [repeat constructor; simpl; tauto|]. split; [intros x; auto|].
    split; [left; auto|]. split.
    + intros x [<-|[]]. split; auto. constructor.
    + intros q [<-|[]]. left; left; auto.
  - unfold m. rewrite Hnew0, Hall0. simpl. lia.
  - exists r; auto.
Qed.
