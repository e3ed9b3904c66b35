(** * Drawing on a canvas and in egui: proofs *)
From Coq Require Import Ascii String List NArith Arith Bool Lia.
From Verif Require Import Base BaseLemmas Spec TableSpec LayoutSpec DfaModel NfaModel ValidateModel ParserModel FaParserProofs Prop_Validate
  TableModel Messages ApiModel WasmModel WasmSpec WasmProofs ApiProofs DrawModel DrawSpec DrawProofs CanvasModel CanvasSpec.
Import ListNotations.
Close Scope string_scope.
Open Scope list_scope.

Lemma Ret_inj {A} (a b : A) : Ret a = Ret b -> a = b.
Proof. intros H. injection H. auto. Qed.

Section Canvas.
Context {fl : floats} (db : doubles fl).

Definition end_colour (c : option colour) (calls : list (call fl)) : option colour :=
  fold_left (fun c x => match x with SetColor _ c' => Some c' | _ => c end) calls c.
Definition leftover (o : option (D db * list (segment db))) (cs : option colour * @shape fl) : option (D db * list (segment db)) :=
  match closed_outline db (snd cs) with Some x => Some x | None => o end.
Definition path_segments (c : context db) : list (segment db) := concat (map (sp_segments db) (rev (cx_path db c))).

Record ready (c : option colour) (o : option (D db * list (segment db))) (ctx : context db) : Prop := mk_ready {
  rd_style : c <> None -> cx_stroke db ctx = css c /\ cx_fill db ctx = css c;
  rd_align : cx_align db ctx = of_string "center" /\ cx_baseline db ctx = of_string "middle";
  rd_path : match o with Some (t, segments) => cx_width db ctx = t /\ path_segments ctx = segments | None => path_segments ctx = [] end
}.

Ltac fin := repeat match goal with H : d_finite _ _ = true |- _ => rewrite H end.

Lemma line_step c o ctx p q t : ready c o ctx -> c <> None -> drawable db (Line p q t) ->
  exists ctx', canvas_call db ctx (DrawLine fl p q t) = Ret ctx' /\ cx_marks db ctx' = cx_marks db ctx ++ [shape_mark db (c, Line p q t)] /\
    ready c (leftover o (c, Line p q t)) ctx'.
Proof.
  intros [S A P] N ((H1 & H2) & (H3 & H4) & (H5 & H6)). destruct (S N) as (S1 & S2). unfold finite in *. cbn [canvas_call].
  eexists. split; [reflexivity|]. unfold set_line_width. cbn [cx_stroke cx_fill begin_path with_path cx_width cx_align cx_baseline cx_path cx_marks].
  rewrite H5, H6. cbn [andb]. unfold move_to. rewrite H1, H2. cbn [andb with_path cx_stroke cx_fill cx_width cx_align cx_baseline cx_path cx_marks].
  unfold line_to_. rewrite H3, H4. cbn [andb with_path cx_stroke cx_fill cx_width cx_align cx_baseline cx_path cx_marks].
  split.
  - cbn. rewrite S1. reflexivity.
  - split; [intros _; split; cbn; auto|cbn; auto|]. cbn. auto.
Qed.
Lemma circle_step c o ctx p r t : finite_angles db -> ready c o ctx -> c <> None -> drawable db (Circle p r t) ->
  exists ctx', canvas_call db ctx (DrawCircle fl p r t) = Ret ctx' /\ cx_marks db ctx' = cx_marks db ctx ++ [shape_mark db (c, Circle p r t)] /\
    ready c (leftover o (c, Circle p r t)) ctx'.
Proof.
  intros (A1 & A2) [S A P] N ((H1 & H2) & H3 & H4 & (H5 & H6)). destruct (S N) as (S1 & S2). unfold finite in *. cbn [canvas_call].
  unfold set_line_width. cbn [cx_stroke cx_fill begin_path with_path cx_width cx_align cx_baseline cx_path cx_marks].
  rewrite H5, H6. cbn [andb]. unfold arc. rewrite H1, H2, H3, A1, A2, H4.
  cbn [andb negb with_path cx_stroke cx_fill cx_width cx_align cx_baseline cx_path cx_marks unwrap bind].
  eexists. split; [reflexivity|]. split.
  - cbn. rewrite S1. reflexivity.
  - split; [intros _; split; cbn; auto|cbn; auto|]. cbn. auto.
Qed.
Lemma text_step c o ctx p s : ready c o ctx -> c <> None -> drawable db (Text p s) ->
  exists ctx', canvas_call db ctx (DrawCenteredText fl p s) = Ret ctx' /\ cx_marks db ctx' = cx_marks db ctx ++ [shape_mark db (c, Text p s)] /\
    ready c (leftover o (c, Text p s)) ctx'.
Proof.
  intros [S (A1 & A2) P] N (H1 & H2). destruct (S N) as (S1 & S2). unfold finite in *. cbn [canvas_call].
  eexists. split; [reflexivity|]. unfold fill_text. rewrite H1, H2. cbn [andb]. split.
  - cbn. rewrite S2, A1, A2. reflexivity.
  - split; cbn; auto.
Qed.

Lemma body_marks body : finite_angles db -> forall c o ctx, Forall (@paints fl) body -> ready c o ctx ->
  Forall (fun cs => fst cs <> None /\ drawable db (snd cs)) (painted c body) ->
  exists ctx', canvas_calls db ctx body = Ret ctx' /\ cx_marks db ctx' = cx_marks db ctx ++ map (shape_mark db) (painted c body) /\
    ready (end_colour c body) (fold_left leftover (painted c body) o) ctx'.
Proof.
  intros FA. induction body as [|x body IH]; intros c o ctx HP HR HF.
  - exists ctx. cbn. rewrite app_nil_r. auto.
  - pose proof (Forall_inv HP) as (Hx1 & Hx2). pose proof (Forall_inv_tail HP) as HP'. unfold canvas_calls. cbn [foldR].
    destruct x as [| |p r t|p s|p q t|k]; try congruence; cbn [painted] in HF |- *.
    + pose proof (Forall_inv HF) as (N & Dr). cbn [fst snd] in N, Dr.
      destruct (circle_step c o ctx p r t FA HR N Dr) as (c1 & E1 & M1 & R1). rewrite E1. cbn [bind].
      destruct (IH c _ c1 HP' R1 (Forall_inv_tail HF)) as (c2 & E2 & M2 & R2). exists c2. split; [exact E2|]. split; [|exact R2].
      rewrite M2, M1, <- app_assoc. reflexivity.
    + pose proof (Forall_inv HF) as (N & Dr). cbn [fst snd] in N, Dr.
      destruct (text_step c o ctx p s HR N Dr) as (c1 & E1 & M1 & R1). rewrite E1. cbn [bind].
      destruct (IH c _ c1 HP' R1 (Forall_inv_tail HF)) as (c2 & E2 & M2 & R2). exists c2. split; [exact E2|]. split; [|exact R2].
      rewrite M2, M1, <- app_assoc. reflexivity.
    + pose proof (Forall_inv HF) as (N & Dr). cbn [fst snd] in N, Dr.
      destruct (line_step c o ctx p q t HR N Dr) as (c1 & E1 & M1 & R1). rewrite E1. cbn [bind].
      destruct (IH c _ c1 HP' R1 (Forall_inv_tail HF)) as (c2 & E2 & M2 & R2). exists c2. split; [exact E2|]. split; [|exact R2].
      rewrite M2, M1, <- app_assoc. reflexivity.
    + cbn [canvas_call bind]. destruct (IH (Some k) o (set_styles db (color_text k) ctx)) as (c2 & E2 & M2 & R2); auto.
      * destruct HR as [S A P]. split; auto. intros _. destruct k as [[r g] b]. cbn [css set_styles color_text cx_stroke cx_fill]. rewrite <- !MessageSpec.dec_decimal. auto.
      * exists c2. split; [exact E2|]. split; [exact M2|]. exact R2.
Qed.

Lemma last_colour_end body c : Forall (@paints fl) body -> ends_with_shape body -> painted c body <> [] ->
  last_colour (painted c body) = end_colour c body.
Proof.
  intros HP HE HN. destruct body as [|x b _] using rev_ind; [exfalso; apply HN; reflexivity|].
  rewrite painted_app. unfold end_colour. rewrite fold_left_app. cbn [fold_left].
  apply Forall_app in HP. destruct HP as (_ & HX). apply Forall_inv in HX. destruct HX as (X1 & X2).
  destruct x as [| |p r t|p s|p q t|k]; try congruence; cbn [painted]; unfold last_colour; rewrite ?rev_app_distr; cbn [rev app]; try reflexivity.
Qed.
Lemma last_outline_eq l : @last_outline fl db l = fold_left leftover l None.
Proof. reflexivity. Qed.
Lemma outline_two l t segments : @last_outline fl db l = Some (t, segments) -> segments <> [].
Proof.
  rewrite last_outline_eq. assert (H : forall o, (forall t s, o = Some (t, s) -> s <> []) -> fold_left leftover l o = Some (t, segments) -> segments <> []).
  { induction l as [|[c x] l IH]; intros o Ho; cbn [fold_left]; [eauto|]. apply IH. intros t' s'. unfold leftover. cbn [snd].
    destruct x; cbn [closed_outline]; intros E; try (injection E as <- <-; discriminate). eauto. }
  apply H. discriminate.
Qed.

Theorem canvas_shapes opts states links levels calls : paints_shapes opts states links levels calls -> finite_angles db ->
  Forall (fun cs => drawable db (snd cs)) (shapes opts states links levels) -> forall ctx,
  exists ctx', canvas_calls db (drawer_new db ctx) calls = Ret ctx' /\
    cx_marks db ctx' = cx_marks db ctx ++ map (shape_mark db) (shapes opts states links levels) ++ again db (shapes opts states links levels).
Proof.
  intros (body & -> & HP & HE & E) FA HD ctx. unfold canvas_calls. cbn [foldR canvas_call bind].
  assert (HC : Forall (fun cs : option colour * shape => fst cs <> None) (shapes opts states links levels)).
  { unfold shapes. apply Forall_app. split; [|apply Forall_app; split].
    - repeat constructor; discriminate.
    - apply Forall_concat, Forall_map, Forall_forall. intros [i s] _. unfold state_shapes.
      destruct (st_accepting s), (st_initial s); repeat constructor; discriminate.
    - rewrite flat_map_concat_map. apply Forall_concat, Forall_map, Forall_forall. intros l _. unfold link_shapes.
      destruct (o_middle_arrow fl opts), (o_end_arrow fl opts), (lk_from l <? lk_to l), (lk_to l <? lk_from l); repeat constructor; discriminate. }
  assert (HF : Forall (fun cs : option colour * shape => fst cs <> None /\ drawable db (snd cs)) (painted None body)).
  { rewrite E. apply Forall_forall. intros x Hx. rewrite Forall_forall in HC, HD. auto. }
  assert (HR : ready None None (begin_path db (drawer_new db ctx))).
  { split; [congruence|split; reflexivity|reflexivity]. }
  destruct (body_marks body FA None None _ HP HR HF) as (c1 & E1 & M1 & R1). 
  assert (F : forall l1 l2 (s s' : context db), foldR (canvas_call db) s l1 = Ret s' -> foldR (canvas_call db) s (l1 ++ l2) = foldR (canvas_call db) s' l2).
  { clear. induction l1 as [|x l1 IH]; intros l2 s s' H; cbn [foldR app] in *; [congruence|].
    destruct (canvas_call db s x); cbn [bind] in *; try discriminate. auto. }
  rewrite (F _ _ _ _ E1). cbn [foldR canvas_call bind]. eexists. split; [reflexivity|].
  rewrite <- E. unfold again. rewrite <- last_outline_eq in R1. destruct R1 as [S1 A1 P1]. unfold stroke.
  assert (NE : painted None body <> []).
  { rewrite E. unfold shapes, entry_shapes. cbn [app]. discriminate. }
  destruct (last_outline db (painted None body)) as [(t, segments)|] eqn:EO.
  - destruct P1 as (W1 & P1). fold (path_segments c1). rewrite P1. pose proof (outline_two _ _ _ EO) as NS.
    rewrite (last_colour_end body None HP HE NE).
    assert (NC : end_colour None body <> None).
    { rewrite <- (last_colour_end body None HP HE NE). unfold last_colour. rewrite Forall_forall in HF.
      destruct (rev (painted None body)) as [|[k s] l] eqn:ER.
      - exfalso. apply NE. rewrite <- (rev_involutive (painted None body)), ER. reflexivity.
      - apply (HF (k, s)). apply in_rev. rewrite ER. left. reflexivity. }
    destruct (S1 NC) as (S2 & _). destruct segments as [|g segments]; [congruence|]. cbn [with_marks cx_marks].
    rewrite M1, S2, W1. cbn. rewrite <- app_assoc. reflexivity.
  - fold (path_segments c1). rewrite P1. rewrite M1, app_nil_r. reflexivity.
Qed.

Lemma again_shapes opts states links levels : again db (shapes opts states links levels) <> [].
Proof.
  unfold again. assert (NN : forall l o, o <> None -> fold_left leftover l o <> None).
  { induction l as [|cs l IH]; intros o Ho; cbn [fold_left]; auto. apply IH. unfold leftover. destruct (closed_outline db (snd cs)); [discriminate|auto]. }
  assert (NO : last_outline db (shapes opts states links levels) <> None).
  { rewrite last_outline_eq. unfold shapes, entry_shapes. cbn [app fold_left]. apply NN. discriminate. }
  destruct (last_outline db (shapes opts states links levels)) as [[t g]|]; [discriminate|congruence].
Qed.
Lemma call_cases x ctx : finite_angles db ->
  (negative_circle db x /\ canvas_call db ctx x = Panic) \/ (~ negative_circle db x /\ exists ctx', canvas_call db ctx x = Ret ctx').
Proof.
  intros (A1 & A2). destruct x as [| |p r t|p s|p q t|k]; try (right; split; [intros []|eexists; reflexivity]).
  cbn [canvas_call negative_circle]. unfold arc. rewrite A1, A2. unfold finite_point, finite.
  destruct (d_finite db (widen db (fst p))) eqn:E1; [|right; split; [intuition congruence|eexists; reflexivity]].
  destruct (d_finite db (widen db (snd p))) eqn:E2; [|right; split; [intuition congruence|eexists; reflexivity]].
  destruct (d_finite db (widen db r)) eqn:E3; [|right; split; [intuition congruence|eexists; reflexivity]].
  cbn [andb negb]. destruct (d_negative db (widen db r)) eqn:E4.
  - left. split; auto.
  - right. split; [intuition congruence|]. cbn [unwrap bind]. eexists. reflexivity.
Qed.
Theorem canvas_panics_iff calls : finite_angles db -> forall ctx,
  (canvas_calls db ctx calls = Panic <-> Exists (negative_circle db) calls) /\
  (~ Exists (negative_circle db) calls -> exists ctx', canvas_calls db ctx calls = Ret ctx').
Proof.
  intros FA. unfold canvas_calls. induction calls as [|x calls IH]; intros ctx; cbn [foldR].
  - split; [split; [discriminate|intros H; inversion H]|]. intros _. eauto.
  - destruct (call_cases x ctx FA) as [(N & E)|(N & ctx' & E)]; rewrite E; cbn [bind].
    + split; [split; auto|]. intros H. exfalso. auto.
    + destruct (IH ctx') as (I1 & I2). split.
      * rewrite I1. split; [auto|]. intros H. inversion H; subst; [congruence|auto].
      * intros H. apply I2. auto.
Qed.

(** any calls *)
Lemma width_set ctx t : cx_width db (set_line_width db (widen db t) ctx) = width_after db (cx_width db ctx) t /\
  cx_stroke db (set_line_width db (widen db t) ctx) = cx_stroke db ctx /\ cx_fill db (set_line_width db (widen db t) ctx) = cx_fill db ctx /\
  cx_align db (set_line_width db (widen db t) ctx) = cx_align db ctx /\ cx_baseline db (set_line_width db (widen db t) ctx) = cx_baseline db ctx /\
  cx_path db (set_line_width db (widen db t) ctx) = cx_path db ctx /\ cx_marks db (set_line_width db (widen db t) ctx) = cx_marks db ctx.
Proof. unfold set_line_width, width_after. destruct (_ && _); repeat split. Qed.
Record same (ctx : context db) (border inside : str) (width : D db) (left : list (segment db)) (marks : list (mark db)) (ctx' : context db) : Prop := mk_same {
  sm_align : cx_align db ctx' = cx_align db ctx; sm_baseline : cx_baseline db ctx' = cx_baseline db ctx;
  sm_stroke : cx_stroke db ctx' = border; sm_fill : cx_fill db ctx' = inside; sm_width : cx_width db ctx' = width;
  sm_left : path_segments ctx' = left; sm_marks : cx_marks db ctx' = cx_marks db ctx ++ marks
}.
Lemma any_line ctx p q t : exists ctx', canvas_call db ctx (DrawLine fl p q t) = Ret ctx' /\
  same ctx (cx_stroke db ctx) (cx_fill db ctx) (width_after db (cx_width db ctx) t) (line_left db p q)
       (outline_mark db (cx_stroke db ctx) (width_after db (cx_width db ctx) t) (line_segments db p q)) ctx'.
Proof.
  cbn [canvas_call]. eexists. split; [reflexivity|].
  destruct (width_set (begin_path db ctx) t) as (W1 & W2 & W3 & W4 & W5 & W6 & W7).
  set (c := set_line_width db (widen db t) (begin_path db ctx)) in *. clearbody c. cbn in W1, W2, W3, W4, W5, W6, W7.
  unfold move_to, line_to_, line_left, line_segments, finite_b.
  destruct (d_finite db (widen db (fst p)) && d_finite db (widen db (snd p)));
    destruct (d_finite db (widen db (fst q)) && d_finite db (widen db (snd q))); cbn [andb];
    unfold stroke, close_path; repeat (cbn [with_path with_marks cx_path cx_marks rev map app concat sp_add sp_last sp_segments sp_first last segment_end]; rewrite ?W6);
    split; cbn; rewrite ?W1, ?W2, ?W3, ?W4, ?W5, ?W7, ?app_nil_r; unfold path_segments; cbn; rewrite ?W6; reflexivity.
Qed.
Lemma any_circle ctx p r t : finite_angles db -> ~ negative_circle db (DrawCircle fl p r t) -> exists ctx', canvas_call db ctx (DrawCircle fl p r t) = Ret ctx' /\
  same ctx (cx_stroke db ctx) (cx_fill db ctx) (width_after db (cx_width db ctx) t) (circle_left db p r)
       (outline_mark db (cx_stroke db ctx) (width_after db (cx_width db ctx) t) (circle_segments db p r)) ctx'.
Proof.
  intros (A1 & A2) N. cbn [canvas_call].
  destruct (width_set (begin_path db ctx) t) as (W1 & W2 & W3 & W4 & W5 & W6 & W7).
  set (c := set_line_width db (widen db t) (begin_path db ctx)) in *. clearbody c. cbn in W1, W2, W3, W4, W5, W6, W7.
  unfold arc, circle_left, circle_segments, finite_b. rewrite A1, A2, !andb_true_r. cbn [negative_circle] in N. unfold finite_point, finite in N.
  destruct (d_finite db (widen db (fst p)) && d_finite db (widen db (snd p)) && d_finite db (widen db r)) eqn:EF; cbn [negb].
  - apply andb_prop in EF as (EF & E3). apply andb_prop in EF as (E1 & E2).
    destruct (d_negative db (widen db r)) eqn:EN; [exfalso; tauto|]. rewrite W6. cbn [unwrap bind]. eexists. split; [reflexivity|].
    unfold stroke, close_path. cbn. split; cbn; rewrite ?W1, ?W2, ?W3, ?W4, ?W5, ?W7; reflexivity.
  - cbn [unwrap bind]. eexists. split; [reflexivity|]. unfold stroke, close_path. rewrite W6. cbn. rewrite W6.
    split; cbn; rewrite ?app_nil_r; unfold path_segments; rewrite ?W6; auto.
Qed.
Theorem canvas_marks_of calls : finite_angles db -> ~ Exists (negative_circle db) calls -> forall ctx,
  exists ctx', canvas_calls db ctx calls = Ret ctx' /\ cx_marks db ctx' = cx_marks db ctx ++
    marks_of db (cx_align db ctx) (cx_baseline db ctx) (cx_stroke db ctx) (cx_fill db ctx) (cx_width db ctx) (path_segments ctx) calls.
Proof.
  intros FA. unfold canvas_calls. induction calls as [|x calls IH]; intros N ctx; cbn [foldR].
  - eexists. split; [reflexivity|]. cbn [marks_of]. rewrite app_nil_r. reflexivity.
  - assert (Nx : ~ negative_circle db x) by auto. assert (Nc : ~ Exists (negative_circle db) calls) by auto.
    enough (H : exists ctx1 border inside width left marks, canvas_call db ctx x = Ret ctx1 /\ same ctx border inside width left marks ctx1 /\
      marks_of db (cx_align db ctx) (cx_baseline db ctx) (cx_stroke db ctx) (cx_fill db ctx) (cx_width db ctx) (path_segments ctx) (x :: calls) =
      marks ++ marks_of db (cx_align db ctx) (cx_baseline db ctx) border inside width left calls).
    { destruct H as (ctx1 & border & inside & width & left & marks & E & [S1 S2 S3 S4 S5 S6 S7] & EM). rewrite E. cbn [bind].
      destruct (IH Nc ctx1) as (ctx' & E' & M). exists ctx'. split; auto. rewrite M, S1, S2, S3, S4, S5, S6, S7, EM, app_assoc. reflexivity. }
    destruct x as [| |p r t|p s|p q t|k]; cbn [marks_of].
    + eexists. do 4 eexists. exists []. split; [reflexivity|]. split; [|reflexivity]. split; try reflexivity. cbn. rewrite app_nil_r. reflexivity.
    + eexists. do 5 eexists. split; [reflexivity|]. split; [|reflexivity]. unfold stroke. fold (path_segments ctx).
      destruct (path_segments ctx) as [|g l] eqn:EP; split; cbn [with_marks cx_align cx_baseline cx_stroke cx_fill cx_width cx_marks outline_mark];
        unfold path_segments; cbn [with_marks cx_path]; rewrite ?app_nil_r; auto.
    + destruct (any_circle ctx p r t FA Nx) as (c & E & S). exists c. do 5 eexists. split; [exact E|]. split; [exact S|reflexivity].
    + eexists. do 5 eexists. split; [reflexivity|]. split; [|reflexivity]. unfold fill_text, finite_b.
      destruct (_ && _); split; try reflexivity. rewrite app_nil_r. reflexivity.
    + destruct (any_line ctx p q t) as (c & E & S). exists c. do 5 eexists. split; [exact E|]. split; [exact S|reflexivity].
    + eexists. do 4 eexists. exists []. split; [reflexivity|]. split; [|reflexivity]. destruct k as [[r g] b].
      cbn [css]. rewrite <- !MessageSpec.dec_decimal. split; try reflexivity. cbn. rewrite app_nil_r. reflexivity.
Qed.
End Canvas.

(** ** egui *)
Section Egui.
Context {fl : floats}.
Lemma egui_fold (calls : list (call fl)) : forall e, map Some (ed_shapes (fold_left egui_call calls e)) =
  map Some (ed_shapes e) ++ map egui_of (painted (Some (ed_color e)) calls).
Proof.
  induction calls as [|x calls IH]; intros e; cbn [fold_left painted]; [rewrite app_nil_r; reflexivity|].
  rewrite IH. destruct x as [| |p r t|p s|p q t|k]; cbn [egui_call ed_shapes ed_color painted]; try reflexivity;
    rewrite map_app, <- app_assoc; reflexivity.
Qed.
Lemma painted_coloured calls k : Forall (fun cs : option colour * @shape fl => fst cs <> None) (painted None calls) ->
  painted (Some k) calls = painted None calls.
Proof.
  induction calls as [|x calls IH]; [reflexivity|]. destruct x as [| |p r t|p s|p q t|k']; cbn [painted]; auto; intros H;
    apply Forall_inv in H; cbn [fst] in H; congruence.
Qed.
Lemma shapes_coloured (opts : draw_options fl) states links levels :
  Forall (fun cs : option colour * shape => fst cs <> None) (shapes opts states links levels).
Proof.
  unfold shapes. apply Forall_app. split; [|apply Forall_app; split].
  - repeat constructor; discriminate.
  - apply Forall_concat, Forall_map, Forall_forall. intros [i s] _. unfold state_shapes.
    destruct (st_accepting s), (st_initial s); repeat constructor; discriminate.
  - rewrite flat_map_concat_map. apply Forall_concat, Forall_map, Forall_forall. intros l _. unfold link_shapes.
    destruct (o_middle_arrow fl opts), (o_end_arrow fl opts), (lk_from l <? lk_to l), (lk_to l <? lk_from l); repeat constructor; discriminate.
Qed.
Theorem egui_shapes (opts : draw_options fl) states links levels calls : paints_shapes opts states links levels calls -> forall l,
  map Some (ed_shapes (fold_left egui_call calls (egui_new l))) = map Some l ++ map egui_of (shapes opts states links levels).
Proof.
  intros (body & -> & _ & _ & E) l. rewrite egui_fold. f_equal. cbn [painted egui_new ed_color].
  rewrite <- E. rewrite painted_coloured.
  - rewrite painted_app. cbn [painted]. rewrite app_nil_r. reflexivity.
  - rewrite painted_app. cbn [painted]. rewrite app_nil_r, E. apply shapes_coloured.
Qed.

Lemma load_dfa_cases u : (exists d, load_dfa u = Ret (Some d) /\ loads_dfa u d) \/ (load_dfa u = Ret None /\ ~ exists d, loads_dfa u d).
Proof.
  unfold load_dfa. destruct (parse_dfa_total u) as (o & Eo). rewrite Eo. destruct o as [t|]; cbn [obind bind].
  - assert (T : dfa_text t u) by (apply parse_dfa_iff; auto). destruct (dfa_try_from t) as [d|e] eqn:Ed; cbn [result_option].
    + left. exists d. split; auto. exists t. split; auto. split; [apply C06_dfa_accepted_iff_well_formed; eauto|].
      apply C06_dfa_faithful; auto. apply C06_dfa_accepted_iff_well_formed; eauto.
    + right. split; auto. intros (d & t' & T' & W & _). assert (t' = t) as -> by (eapply dfa_text_unique; eauto).
      apply C06_dfa_accepted_iff_well_formed in W. destruct W as (d' & W). congruence.
  - right. split; auto. intros (d & t' & T' & W & _). apply parse_dfa_iff in T'. congruence.
Qed.
Lemma load_dfa_ret u d : load_dfa u = Ret (Some d) -> load_dfa u = Ret (Some d) /\ loads_dfa u d.
Proof. intros E. split; auto. destruct (load_dfa_cases u) as [(d' & E' & L)|(E' & _)]; congruence. Qed.
Lemma load_nfa_ret u n : load_nfa u = Ret (Some n) -> load_nfa u = Ret (Some n) /\ loads_nfa u n.
Proof.
  intros E. split; auto. unfold load_nfa in E. destruct (parse_nfa_total u) as (o & Eo). rewrite Eo in E.
  destruct o as [t|]; cbn [obind bind] in E; [|discriminate]. destruct (nfa_try_from t) as [n'|e] eqn:Ed; [|discriminate]. cbn in E. injection E as ->.
  exists t. split; [apply parse_nfa_iff; auto|]. assert (W : nfa_well_formed t) by (apply C07_nfa_accepted_iff_well_formed; eauto).
  split; auto. apply C07_nfa_faithful; auto.
Qed.
Lemma frame_correct h (g : gui) edited (clicked : bool) : let u := if clicked then edited else gui_to_render g in
  exists l, gui_frame h g edited clicked = Ret (mk_gui edited u, l) /\ frame_shows (fl := fl) u l.
Proof.
  intros u. unfold gui_frame. cbn [gui_to_render]. fold u. destruct (load_dfa_cases u) as [(d & E & L)|(E & N)]; rewrite E; cbn [bind].
  - pose proof (loads_dfa_valid u d L) as V.
    destruct (draw_dfa_eq (with_offset fl (f_of_usize fl 20) (f_of_usize fl 150) (default_options fl)) h d V) as (links & levels & calls & LO & EC & PS).
    rewrite EC. cbn [bind]. eexists. split; [reflexivity|]. left. exists d, links, levels. split; auto. split; auto.
    apply (egui_shapes _ _ _ _ _ PS []).
  - exists []. split; [reflexivity|]. right. auto.
Qed.
Theorem gui_frames inputs : forall h g, exists g' frames, gui_run h g inputs = Ret (g', frames) /\
  Forall2 (frame_shows (fl := fl)) (rendered (gui_to_render g) inputs) frames.
Proof.
  induction inputs as [|(edited, clicked) inputs IH]; intros h g; cbn [gui_run rendered].
  - exists g, []. split; auto.
  - destruct (frame_correct (h (length inputs)) g edited clicked) as (l & E & F). rewrite E. cbn [bind].
    destruct (IH h (mk_gui edited (if clicked then edited else gui_to_render g))) as (g' & frames & E' & F'). rewrite E'. cbn [bind].
    exists g', (l :: frames). split; auto.
Qed.
End Egui.
