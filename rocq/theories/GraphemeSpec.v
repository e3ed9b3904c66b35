(** What the theorems about graphemes need to know about the segmentation of a text ([UnicodeSegmentation::graphemes(true)]
    of the external crate, see dandy/src/dfa/mod.rs:814-849 and dandy/src/nfa/mod.rs:1137-1151). *)
From Coq Require Import List NArith Arith Bool Lia.
From Verif Require Import Base Spec.
Import ListNotations.
Open Scope list_scope.

(** a segmentation cuts the text into non-empty pieces, and no piece would be cut further on its own *)
Record text_segmentation (seg : str -> list str) : Prop := {
  sg_concat : forall s, concat (seg s) = s;
  sg_nonempty : forall s g, In g (seg s) -> g <> [];
  sg_whole : forall s g, In g (seg s) -> seg g = [g]
}.

(** an ASCII character other than the line breaks, which Unicode always treats as a grapheme of its own *)
Definition plain_char (c : N) : Prop := (c < 128)%N /\ c <> 10%N /\ c <> 13%N.
Definition splits_plain_text (seg : str -> list str) : Prop :=
  forall s, Forall plain_char s -> seg s = map (fun c => [c]) s.

(** A segmentation for examples: every character is a grapheme, but the combining acute accent (U+0301) belongs to the
    character before it, as in Unicode. *)
Definition accent : N := 769%N.
Fixpoint seg_accents (s : str) : list str :=
  match s with
  | [] => []
  | c :: r => match seg_accents r with
              | (x :: g) :: gs => if (x =? accent)%N then (c :: x :: g) :: gs else [c] :: (x :: g) :: gs
              | l => [c] :: l
              end
  end.

Definition marks (l : str) : Prop := Forall (fun x => x = accent) l.

Lemma seg_accents_marks l : marks l -> forall c, seg_accents (c :: l) = [c :: l].
Proof.
  induction l as [|x l IH]; intros H c; [reflexivity|]. inversion H as [|? ? Hx Hl]; subst.
  change (seg_accents (c :: accent :: l)) with
    (match seg_accents (accent :: l) with
     | (x :: g) :: gs => if (x =? accent)%N then (c :: x :: g) :: gs else [c] :: (x :: g) :: gs
     | l => [c] :: l end).
  rewrite (IH Hl accent). reflexivity.
Qed.

Lemma seg_accents_shape s : Forall (fun g => exists c l, g = c :: l /\ marks l) (seg_accents s).
Proof.
  induction s as [|c r IH]; [constructor|]. cbn [seg_accents]. destruct (seg_accents r) as [|[|x g] gs].
  - constructor; auto. exists c, []. repeat constructor.
  - constructor; [exists c, []; repeat constructor|auto].
  - destruct (N.eqb_spec x accent) as [->|Hx].
    + inversion IH as [|? ? (y & l & E & Hl) Hr]; subst. injection E as <- <-. constructor; auto.
      exists c, (accent :: g). split; auto. constructor; auto.
    + constructor; auto. exists c, []. repeat constructor.
Qed.

Lemma seg_accents_concat s : concat (seg_accents s) = s.
Proof.
  induction s as [|c r IH]; auto. cbn [seg_accents]. destruct (seg_accents r) as [|[|x g] gs]; simpl in *; subst; auto.
  destruct (x =? accent)%N; simpl; auto.
Qed.

Lemma seg_accents_ok : text_segmentation seg_accents.
Proof.
  split.
  - apply seg_accents_concat.
  - intros s g Hg. pose proof (seg_accents_shape s) as H. rewrite Forall_forall in H.
    destruct (H g Hg) as (c & l & -> & _). discriminate.
  - intros s g Hg. pose proof (seg_accents_shape s) as H. rewrite Forall_forall in H.
    destruct (H g Hg) as (c & l & -> & Hl). apply seg_accents_marks; auto.
Qed.

Lemma seg_accents_plain : splits_plain_text seg_accents.
Proof.
  intros s. induction s as [|c r IH]; intros H; auto. inversion H as [|? ? Hc Hr]; subst. cbn [seg_accents map].
  rewrite (IH Hr). destruct r as [|x r]; auto. cbn [map].
  inversion Hr as [|? ? (Hx & _) _]; subst. destruct (N.eqb_spec x accent) as [->|]; auto. exfalso. revert Hx. clear. unfold accent. lia.
Qed.
