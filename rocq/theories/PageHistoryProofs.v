(** * PageHistoryProofs: which click an output of the page comes from *)
From Coq Require Import List NArith Arith Bool Lia.
From Verif Require Import Base BaseLemmas Spec TableSpec LayoutSpec DfaModel NfaModel RegexParserModel WasmSpec DrawModel DrawSpec CanvasModel CanvasSpec
  PageModel PageSpec PageProofs PageHistorySpec.
Import ListNotations.

Section Page.
Context {fl : floats} (db : doubles fl) (seg : str -> list str) (ds ns rs : str -> str).
Local Notation shows := (session_shows db seg ds ns rs).

Lemma clicks_click b e : clicks b e = true -> exists h dbg, e = Click b h dbg.
Proof. destruct e as [a u|b' h dbg]; [discriminate|]. intros H. exists h, dbg. destruct b, b'; try discriminate H; reflexivity. Qed.

Lemma event_keeps_undelivered e b a pg pg' : event_shows db seg ds ns rs e pg pg' -> output_of b = Some a ->
  (clicks b e = true -> ~ delivers db seg b pg) -> value db pg' a = value db pg a.
Proof.
  intros H O N. destruct (clicks b e) eqn:C; [|eapply event_keeps_output; eauto]. specialize (N eq_refl).
  apply clicks_click in C as (h & dbg & ->). destruct b; try discriminate O; injection O as <-; cbn [delivers] in N.
  - destruct N. exact I.
  - destruct H as (_ & _ & [(d & d' & L & _)|(_ & _ & E)]); [destruct N; eauto|exact E].
  - destruct H as (_ & _ & [(t & n & table & L & _)|(_ & _ & E)]); [destruct N; eauto|exact E].
Qed.

Lemma shows_length : forall es pg pgs, shows pg es pgs -> length pgs = length es.
Proof. induction es as [|e es IH]; intros pg [|pg' pgs] H; try destruct H; auto. cbn. f_equal. eauto. Qed.
Lemma nth_any {A} (l : list A) k d d' : k < length l -> nth k l d = nth k l d'.
Proof. intros H. apply nth_indep. exact H. Qed.
Lemma before_S pg pg' pgs k : k <= length pgs -> before db pg (pg' :: pgs) (S k) = before db pg' pgs k.
Proof. intros H. unfold before. change (nth k (pg' :: pgs) pg = nth k (pg' :: pgs) pg'). apply nth_any. cbn. lia. Qed.

Lemma history b a : output_of b = Some a -> forall es pg pgs, shows pg es pgs ->
  ((forall k, clicked b es k -> ~ delivers db seg b (before db pg pgs k)) -> value db (before db pg pgs (length es)) a = value db pg a) /\
  (forall k, clicked b es k -> delivers db seg b (before db pg pgs k) ->
     (forall j, k < j -> clicked b es j -> ~ delivers db seg b (before db pg pgs j)) ->
     click_shows db seg ds ns rs b (before db pg pgs k) (before db pg pgs (S k)) /\
     value db (before db pg pgs (length es)) a = value db (before db pg pgs (S k)) a).
Proof.
  intros O. induction es as [|e es IH]; intros pg pgs H.
  - destruct pgs; [|destruct H]. split; [reflexivity|]. intros k (e & E & _). destruct k; discriminate E.
  - destruct pgs as [|pg' pgs]; [destruct H|]. destruct H as (H1 & H2). pose proof (shows_length _ _ _ H2) as L.
    destruct (IH pg' pgs H2) as (I1 & I2). cbn [length]. rewrite before_S by lia.
    assert (B : forall k, clicked b es k -> k < length es) by (intros k (x & E & _); apply nth_error_Some; congruence).
    split.
    + intros N. rewrite I1.
      * apply (event_keeps_undelivered e b a pg pg' H1 O). intros C. apply (N 0). exists e. auto.
      * intros k K. specialize (B k K). rewrite <- (before_S pg) by lia. apply N. exact K.
    + intros k K D N. destruct k as [|k].
      * destruct K as (e0 & E & C). injection E as <-. apply clicks_click in C as (h & dbg & ->). rewrite before_S by lia.
        split; [exact H1|]. apply I1. intros j J. pose proof (B j J). rewrite <- (before_S pg) by lia. apply N; [lia|exact J].
      * assert (K' : clicked b es k) by exact K. pose proof (B k K'). rewrite before_S by lia. rewrite before_S in D |- * by lia. apply I2; auto.
        intros j J1 J2. pose proof (B j J2). rewrite <- (before_S pg) by lia. apply N; [lia|exact J2].
Qed.

Lemma canvas_history : all_drawable db -> forall es pg pgs ctx, shows pg es pgs -> canvas_of db pg = Some ctx ->
  exists l ctx', pictures db seg pg es pgs l /\ canvas_of db (last pgs pg) = Some ctx' /\ cx_marks db ctx' = cx_marks db ctx ++ concat l.
Proof.
  intros HD. induction es as [|e es IH]; intros pg pgs ctx H C.
  - destruct pgs; [|destruct H]. exists [], ctx. split; [constructor|]. split; [exact C|]. cbn. rewrite app_nil_r. reflexivity.
  - destruct pgs as [|pg' pgs]; [destruct H|]. destruct H as (H1 & H2). rewrite last_step.
    destruct (clicks BVisualize e) eqn:V.
    + apply clicks_click in V as V'. destruct V' as (h & dbg & ->). destruct H1 as (_ & [(n & links & levels & c & c' & L & _ & LO & C1 & C2 & M)|(N & _ & E)]).
      * rewrite C in C1. injection C1 as <-. destruct (IH pg' pgs c' H2 C2) as (l & ctx' & P & CL & ML). cbv zeta in M.
        specialize (M (HD _ _ _)). eexists (_ :: l), ctx'. split; [|split; [exact CL|]].
        -- apply pictures_one; [reflexivity| |exact P]. exists n, links, levels. split; [exact L|]. split; [exact LO|]. reflexivity.
        -- rewrite ML, M. cbn [concat]. rewrite <- !app_assoc. reflexivity.
      * rewrite C in E. destruct (IH pg' pgs ctx H2 E) as (l & ctx' & P & CL & ML). exists l, ctx'. split; [|auto].
        apply pictures_skip; [|exact P]. intros _. exact N.
    + assert (E : canvas_of db pg' = canvas_of db pg).
      { destruct e as [a u|b h dbg]; [apply H1|]. destruct b; try discriminate V; apply H1. }
      rewrite C in E. destruct (IH pg' pgs ctx H2 E) as (l & ctx' & P & CL & ML). exists l, ctx'. split; [|auto].
      apply pictures_skip; [congruence|exact P].
Qed.
End Page.
