(** * C95: rectangles *)
From Coq Require Import Ascii String List NArith ZArith QArith Bool SpecFloat.
From Verif Require Import Base Spec Messages DrawModel DrawSpec CanvasModel CanvasSpec F32Model F32Spec F64Model F64Spec PointModel PointSpec PointProofs.
Import ListNotations.
Close Scope string_scope.
Open Scope list_scope.

(** On a canvas: rectangles change nothing but that they are painted, so everything else is painted as without them. *)
Theorem C95_canvas (fl : floats) (db : doubles fl) (c : context db) (l : list (drawer_call fl)) :
  let s := mk_surface c (map Mark (cx_marks db c)) in
  match canvas_calls db c (others l) with
  | Ret c' => exists painted, surface_calls db s l = Ret (mk_surface c' painted) /\ marks_only painted = cx_marks db c'
  | Panic => surface_calls db s l = Panic
  | Diverge => surface_calls db s l = Diverge
  end.
Proof.
  cbn zeta. pose proof (surface_is db l c (map Mark (cx_marks db c)) (marks_map db _)) as H. destruct (canvas_calls db c (others l)); auto.
  destruct H as (q & E & M). eauto.
Qed.
Print Assumptions C95_canvas.
(** A rectangle is painted over what was painted before, in the colour that was set last, where it was asked for. *)
Theorem C95_canvas_rect (fl : floats) (db : doubles fl) (c : context db) (col : option colour) (before after : list (drawer_call fl)) (p size : pos fl) (s : surface db) :
  cx_fill db c = css col -> surface_calls db (mk_surface c (map Mark (cx_marks db c))) (before ++ DrawRect p size :: after) = Ret s ->
  exists s' rect rest,
    surface_calls db (mk_surface c (map Mark (cx_marks db c))) before = Ret s' /\
    rect_painted db (colour_after before col) p size rect /\
    sf_painted s = sf_painted s' ++ rect ++ rest.
Proof.
  intros C H. unfold surface_calls in *. rewrite foldR_split in H. destruct (foldR (surface_call db) _ before) as [s'| |] eqn:E; try discriminate.
  cbn [bind foldR] in H. pose proof (fill_after db before _ s' col E C) as K. destruct (rect_added db s' p size _ K) as (rect & E1 & E2).
  rewrite E1 in H. cbn [bind] in H. exists s', rect.
  assert (M : marks_only (sf_painted s' ++ rect) = cx_marks db (sf_context s')).
  { pose proof (surface_is db before c _ (marks_map db (cx_marks db c))) as X. unfold surface_calls in X. rewrite E in X.
    destruct (canvas_calls db c (others before)) as [c'| |]; try discriminate. destruct X as (q & X1 & X2). injection X1 as ->. cbn [sf_painted sf_context].
    rewrite marks_app, X2. pose proof (surface_is db [DrawRect p size] c' (map Mark (cx_marks db c') ++ q)) as Y.
    unfold rect_painted in E2. rewrite <- (app_nil_r (cx_marks db c')). f_equal; [rewrite app_nil_r; reflexivity|].
    destruct rect as [|[m|st x y w h] rect]; auto.
    - exfalso. assert (Mark m :: rect = []). { apply E2. intros X. apply E2 in X. discriminate. } discriminate.
    - destruct rect as [|]; auto. exfalso.
      match type of E2 with (?A -> _) /\ (_ -> ?B) => assert (NA : ~ A) by (intros X; apply E2 in X; discriminate) end. apply E2 in NA. discriminate. }
  pose proof (surface_is db after (sf_context s') (sf_painted s' ++ rect) M) as X. unfold surface_calls in X.
  rewrite H in X. destruct (canvas_calls db (sf_context s') (others after)) as [c'| |]; try discriminate. destruct X as (q & X1 & X2). injection X1 as ->.
  exists q. cbn [sf_painted]. rewrite app_assoc. auto.
Qed.
Print Assumptions C95_canvas_rect.

(** In egui: the same, with the other corner calculated by adding the size, and green before a colour is set. *)
Theorem C95_egui (fl : floats) (l : list (drawer_call fl)) :
  let e := fold_left egui_surface_call l (mk_egui_surface (egui_new []) []) in
  es_drawer e = fold_left egui_call (others l) (egui_new []) /\ shapes_only (es_painted e) = ed_shapes (es_drawer e).
Proof. cbn zeta. destruct (egui_surface_is l (egui_new []) [] eq_refl) as (q & -> & E). cbn [es_drawer es_painted]. auto. Qed.
Print Assumptions C95_egui.
Theorem C95_egui_rect (fl : floats) (before after : list (drawer_call fl)) (p size : pos fl) :
  let run l := es_painted (fold_left egui_surface_call l (mk_egui_surface (egui_new []) [])) in
  exists rest, run (before ++ DrawRect p size :: after) =
    run before ++ ERect p (f_add fl (fst p) (fst size), f_add fl (snd p) (snd size)) (match colour_after before None with Some c => c | None => (0, 255, 0)%nat end) :: rest.
Proof.
  cbn beta zeta. rewrite fold_left_app. cbn [fold_left egui_surface_call].
  pose proof (egui_colour before (mk_egui_surface (fl := fl) (egui_new []) []) None eq_refl) as C.
  destruct (egui_surface_is before (egui_new (fl := fl) []) [] eq_refl) as (q & E & M). rewrite E in *. cbn [es_drawer es_painted] in *. rewrite C.
  match goal with |- context [fold_left egui_surface_call after (mk_egui_surface ?d ?p)] => destruct (egui_surface_is after d p) as (q' & -> & _) end.
  { rewrite shapes_app, M. cbn. rewrite app_nil_r. reflexivity. }
  cbn [es_painted]. exists q'. rewrite <- app_assoc. reflexivity.
Qed.
Print Assumptions C95_egui_rect.

(** Options move the corner of a rectangle and scale its distance from the origin, but not its size: the opposite corner is not where
    the options would put it. *)
Theorem C95_options (fl : floats) (opts : draw_options fl) (p size : pos fl) :
  offset_scale opts (DrawRect p size) =
  DrawRect (f_mul fl (f_add fl (fst p) (o_x_offset fl opts)) (o_x_scale fl opts), f_mul fl (f_add fl (snd p) (o_y_offset fl opts)) (o_y_scale fl opts)) size.
Proof. reflexivity. Qed.
Print Assumptions C95_options.
Theorem C95_options_refuted : exists (opts : draw_options rationals) (p size p' size' q' : pos rationals) (t : Q),
  offset_scale opts (DrawRect p size) = DrawRect p' size' /\
  offset_scale opts (Other (DrawLine rationals p (p_add rationals p size) t)) = Other (DrawLine rationals p' q' t) /\
  q' <> p_add rationals p' size'.
Proof.
  exists (twice_as_large rationals), (1, 1)%Q, (1, 1)%Q. do 3 eexists. exists 1%Q. split; [reflexivity|]. split; [reflexivity|]. vm_compute. discriminate.
Qed.
Print Assumptions C95_options_refuted.

(** Two rectangles and a line on a canvas of the browser: the second rectangle is empty. *)
Example C95_example :
  let n k := f_of_usize f32 k in
  let l := [Other (SetColor f32 (1, 2, 3)); DrawRect (n 1, n 2) (n 30, n 40); DrawRect (n 5, n 6) (n 0, n 7); Other (DrawLine f32 (n 1, n 1) (n 2, n 2) (n 1))]%nat in
  exists c painted m, surface_calls f64 (mk_surface (new_context f64) []) l = Ret (mk_surface c painted) /\
    painted = [FilledRect (db := f64) (of_string "rgb(1 2 3)") (widen f64 (n 1)) (widen f64 (n 2)) (widen f64 (n 30)) (widen f64 (n 40)); Mark m]%nat.
Proof. cbn zeta. do 3 eexists. split; [reflexivity|]. reflexivity. Qed.
