(** * F64Finite: the numbers of drawings of any size that fits into memory are finite *)
From Coq Require Import List NArith ZArith QArith Qpower Bool SpecFloat Lia.
From Verif Require Import Base BaseLemmas Spec DrawModel DrawSpec DrawProofs CanvasModel CanvasSpec CanvasProofs PageModel PageSpec F32Model F32Spec F32Proofs F32Shapes F32Final F64Model F64Spec F64Proofs.
Import ListNotations.
Local Open Scope Z_scope.

(** [x] is a number below 2^k *)
Definition fin (k : Z) (x : spec_float) : Prop :=
  match x with
  | S754_zero _ => True
  | S754_finite _ m e => Zpos (digits2_pos m) <= 24 /\ -149 <= e <= 104 /\ Zpos (digits2_pos m) + e <= k
  | _ => False
  end.
Lemma fin_mono k l x : fin k x -> k <= l -> fin l x.
Proof. destruct x; cbn [fin]; auto. lia. Qed.
Lemma fin_single k x : fin k x -> single x.
Proof.
  destruct x as [| | |s m e]; cbn [fin single]; auto. intros (H & H1 & _). destruct (digits2_range m) as [_ U]. split; [|lia].
  eapply Z.lt_le_trans; [exact U|]. apply Z.pow_le_mono_r; lia.
Qed.
Lemma fin_finite k x : fin k x -> finite f64 x.
Proof. intros H. unfold finite. rewrite (widen_d_finite x (fin_single k x H)). destruct x; cbn [fin] in H; try tauto; reflexivity. Qed.

(** Digits *)
Lemma zdigits_nonneg m : 0 <= Zdigits2 m.
Proof. destruct m; cbn; lia. Qed.
Lemma zdigits_range m : 0 < m -> 2 ^ (Zdigits2 m - 1) <= m < 2 ^ Zdigits2 m.
Proof. destruct m as [|p|p]; try lia. intros _. apply digits2_range. Qed.
Lemma zdigits_le m d : 0 <= d -> 0 <= m < 2 ^ d -> Zdigits2 m <= d.
Proof.
  intros Hd [H1 H2]. destruct (Z.eq_dec m 0) as [->|N]; [cbn; lia|]. destruct (zdigits_range m ltac:(lia)) as [L _].
  assert (Zdigits2 m - 1 < d); [|lia]. destruct (Z.eq_dec (Zdigits2 m) 0); [lia|]. pose proof (zdigits_nonneg m). apply (Z.pow_lt_mono_r_iff 2); lia.
Qed.
Lemma zdigits_upper m : 0 <= m -> m < 2 ^ Zdigits2 m.
Proof. intros H. destruct (Z.eq_dec m 0) as [->|N]; [cbn; lia|]. apply zdigits_range. lia. Qed.

(** Shifting to the right halves *)
Lemma shr_1_m r : 0 <= shr_m r -> shr_m (shr_1 r) = shr_m r / 2.
Proof.
  destruct r as [m b c]. cbn [shr_m]. destruct m as [|p|p]; cbn; try reflexivity; try lia. intros _. destruct p as [p|p|]; cbn [shr_m].
  - rewrite Pos2Z.inj_xI. symmetry. rewrite Z.mul_comm, Z.div_add_l by lia. cbn. lia.
  - rewrite (Pos2Z.inj_xO p), Z.mul_comm, Z.div_mul by lia. reflexivity.
  - reflexivity.
Qed.
Lemma shr_iter_m n : forall r, 0 <= shr_m r -> shr_m (iter_pos shr_1 n r) = shr_m r / 2 ^ Zpos n.
Proof.
  assert (D : forall m a b, 0 <= m -> 0 < a -> 0 < b -> m / a / b = m / (a * b)) by (intros; apply Z.div_div; lia).
  assert (P : forall p, 0 < 2 ^ Zpos p) by (intros; apply Z.pow_pos_nonneg; lia).
  assert (N : forall m p, 0 <= m -> 0 <= m / 2 ^ Zpos p) by (intros; apply Z.div_pos; auto).
  induction n as [n IH|n IH|]; intros r H; cbn [iter_pos].
  - assert (H1 : 0 <= shr_m (shr_1 r)) by (rewrite shr_1_m by auto; apply Z.div_pos; lia).
    rewrite IH by (rewrite IH; auto). rewrite IH, shr_1_m by auto. rewrite Pos2Z.inj_xI.
    pose proof (P n). rewrite !D; try lia; auto. 2: apply Z.div_pos; lia. f_equal. replace (2 * Zpos n + 1) with (1 + Zpos n + Zpos n) by lia. rewrite !Z.pow_add_r by lia. ring.
  - rewrite IH by (rewrite IH; auto). rewrite IH by auto. pose proof (P n). rewrite D by auto. rewrite (Pos2Z.inj_xO n). f_equal.
    replace (2 * Zpos n) with (Zpos n + Zpos n) by lia. rewrite Z.pow_add_r by lia. ring.
  - rewrite shr_1_m, Z.pow_1_r by auto. reflexivity.
Qed.

(** To at most 24 digits *)
Lemma shr_fexp_bound M E l m e : 0 <= M -> shr_fexp 24 128 M E l = (m, e) ->
  0 <= shr_m m /\ (exists j, 0 <= j /\ e = E + j /\ shr_m m = M / 2 ^ j /\ (j = 0 \/ j = fexp 24 128 (Zdigits2 M + E) - E)) /\ fexp 24 128 (Zdigits2 M + E) <= e.
Proof.
  intros HM H. unfold shr_fexp, shr in H.
  assert (R : forall l, shr_m (shr_record_of_loc M l) = M) by (intros [|[]]; reflexivity).
  destruct (fexp 24 128 (Zdigits2 M + E) - E) as [|n|n] eqn:K; injection H as <- <-.
  - rewrite R. split; [auto|]. split; [|lia]. exists 0. rewrite Z.pow_0_r, Z.div_1_r. repeat split; lia.
  - rewrite shr_iter_m; rewrite R; auto. assert (0 < 2 ^ Zpos n) by (apply Z.pow_pos_nonneg; lia). split; [apply Z.div_pos; lia|]. split; [|lia].
    exists (Zpos n). repeat split; lia.
  - rewrite R. split; [auto|]. split; [|lia]. exists 0. rewrite Z.pow_0_r, Z.div_1_r. repeat split; lia.
Qed.
Lemma shr_fexp_digits M E l m e k : 0 <= M -> shr_fexp 24 128 M E l = (m, e) -> Zdigits2 M + E <= k -> -149 <= k ->
  0 <= shr_m m /\ Zdigits2 (shr_m m) <= 24 /\ Zdigits2 (shr_m m) + e <= k /\ -149 <= e /\ (E <= 104 -> Zdigits2 M <= 24 -> e <= Z.max E (-149)) /\ e <= Z.max E (Z.max (Zdigits2 M + E - 24) (-149)).
Proof.
  intros HM H HK Hk. destruct (shr_fexp_bound _ _ _ _ _ HM H) as (H1 & (j & J0 & -> & EM & J) & F). unfold fexp, emin in *.
  pose proof (zdigits_nonneg M) as D0. pose proof (zdigits_upper M HM) as U. split; [auto|].
  assert (B : Zdigits2 (shr_m m) <= Z.max 0 (Zdigits2 M - j)).
  { rewrite EM. apply zdigits_le; [lia|]. split; [apply Z.div_pos; [lia|apply Z.pow_pos_nonneg; lia]|]. apply Z.div_lt_upper_bound; [apply Z.pow_pos_nonneg; lia|].
    rewrite <- Z.pow_add_r by lia. eapply Z.lt_le_trans; [exact U|]. apply Z.pow_le_mono_r; lia. }
  repeat split; lia.
Qed.
Lemma round_fin s M E l k : 0 <= M -> Zdigits2 M + E <= k -> E <= k -> 0 <= k <= 100 -> fin (k + 1) (binary_round_aux 24 128 s M E l).
Proof.
  intros HM HD HE Hk. unfold binary_round_aux. destruct (shr_fexp 24 128 M E l) as [m1 e1] eqn:S1.
  destruct (shr_fexp_digits _ _ _ _ _ k HM S1 HD ltac:(lia)) as (P1 & D1 & K1 & L1 & _ & X1).
  set (m2 := round_nearest_even (shr_m m1) (loc_of_shr_record m1)).
  assert (R2 : shr_m m1 <= m2 <= shr_m m1 + 1).
  { unfold m2, round_nearest_even. destruct (loc_of_shr_record m1) as [|[]]; try lia. destruct (Z.even (shr_m m1)); lia. }
  pose proof (zdigits_upper _ P1) as U1. pose proof (zdigits_nonneg (shr_m m1)) as N1.
  assert (D2 : Zdigits2 m2 <= Zdigits2 (shr_m m1) + 1).
  { apply zdigits_le; [lia|]. split; [lia|]. rewrite Z.pow_add_r, Z.pow_1_r by lia. assert (0 < 2 ^ Zdigits2 (shr_m m1)) by (apply Z.pow_pos_nonneg; lia). lia. }
  destruct (shr_fexp 24 128 m2 e1 loc_Exact) as [m3 e3] eqn:S3.
  destruct (shr_fexp_digits m2 e1 loc_Exact m3 e3 (k + 1) ltac:(lia) S3 ltac:(lia) ltac:(lia)) as (P3 & D3 & K3 & L3 & _ & X3).
  destruct (shr_m m3) as [|p|p] eqn:E3; [exact I| |lia]. cbn [Zdigits2] in D3, K3.
  replace (e3 <=? 128 - 24) with true by (symmetry; apply Z.leb_le; lia). cbn [fin]. lia.
Qed.

(** The operations *)
Lemma round_pos_fin s M E k : Zpos (digits2_pos M) + E <= k -> 0 <= k <= 100 -> fin (k + 1) (binary_round 24 128 s M E).
Proof.
  intros H Hk. unfold binary_round. destruct (shl_align M E (fexp 24 128 (Zpos (digits2_pos M) + E))) as [mz ez] eqn:SA.
  assert (Zpos (digits2_pos mz) + ez <= k /\ ez <= k).
  { unfold shl_align in SA. set (f := fexp 24 128 (Zpos (digits2_pos M) + E)) in *. clearbody f. destruct (f - E) as [|d|d] eqn:K; injection SA as <- <-; try lia.
    assert (Zpos (digits2_pos (shift_pos d M)) = Zpos (digits2_pos M) + Zpos d).
    { destruct (digits2_range M) as [L U]. apply digits2_unique; [lia|]. rewrite shift_pos_mul. assert (0 < 2 ^ Zpos d) by (apply Z.pow_pos_nonneg; lia).
      replace (Zpos (digits2_pos M) + Zpos d - 1) with (Zpos (digits2_pos M) - 1 + Zpos d) by lia. rewrite !Z.pow_add_r by lia. nia. }
    lia. }
  apply round_fin; cbn [Zdigits2]; lia.
Qed.
Lemma normalize_fin S E b k : Zdigits2 S + E <= k -> 0 <= k <= 100 -> fin (k + 1) (binary_normalize 24 128 S E b).
Proof. intros H Hk. destruct S as [|M|M]; cbn [binary_normalize]; [exact I| |]; apply round_pos_fin; auto. Qed.
Lemma zdigits_abs m : Zdigits2 m = Zdigits2 (Z.abs m).
Proof. destruct m; reflexivity. Qed.
Lemma fin_num n k : Z.of_nat n < 2 ^ k -> 0 <= k <= 100 -> fin (k + 1) (f_of_usize f32 n).
Proof. intros H Hk. cbn [f32 f_of_usize]. apply normalize_fin; auto. rewrite Z.add_0_r. apply zdigits_le; lia. Qed.
Lemma fin_neg k a : fin k a -> fin k (f_neg f32 a).
Proof. destruct a; auto. Qed.
Lemma align_bound s m e e' k : e' <= e -> Zpos (digits2_pos m) + e <= k -> Z.abs (cond_Zopp s (Zpos (fst (shl_align m e e')))) < 2 ^ (k - e').
Proof.
  intros H K. rewrite (shl_align_fst _ _ _ H). destruct (digits2_range m) as [_ U].
  replace (Z.abs (cond_Zopp s (Zpos m * 2 ^ (e - e')))) with (Zpos m * 2 ^ (e - e')) by (destruct s; cbn [cond_Zopp]; rewrite ?Z.abs_opp, Z.abs_eq; auto; lia).
  eapply Z.lt_le_trans; [apply Z.mul_lt_mono_pos_r; [apply Z.pow_pos_nonneg; lia|exact U]|]. rewrite <- Z.pow_add_r by lia. apply Z.pow_le_mono_r; lia.
Qed.
Lemma sum_fin s m e s' m' e' k l op : Zpos (digits2_pos m) + e <= k -> Zpos (digits2_pos m') + e' <= l -> 0 <= Z.max k l <= 98 -> (op = Z.add \/ op = Z.sub) ->
  fin (Z.max k l + 2) (binary_normalize 24 128 (op (cond_Zopp s (Zpos (fst (shl_align m e (Z.min e e'))))) (cond_Zopp s' (Zpos (fst (shl_align m' e' (Z.min e e')))))) (Z.min e e') false).
Proof.
  intros K L M O. replace (Z.max k l + 2) with (Z.max k l + 1 + 1) by lia. apply normalize_fin; [|lia].
  pose proof (align_bound s m e (Z.min e e') (Z.max k l) ltac:(lia) ltac:(lia)) as A. pose proof (align_bound s' m' e' (Z.min e e') (Z.max k l) ltac:(lia) ltac:(lia)) as B.
  set (z := op _ _). set (x := cond_Zopp s _) in *. set (y := cond_Zopp s' _) in *.
  assert (Z.abs z <= Z.abs x + Z.abs y) by (unfold z; destruct O as [-> | ->]; lia).
  enough (Zdigits2 (Z.abs z) <= Z.max k l - Z.min e e' + 1) by (rewrite zdigits_abs; lia).
  apply zdigits_le; [lia|]. split; [lia|]. rewrite Z.pow_add_r, Z.pow_1_r by lia. lia.
Qed.
Lemma fin_add k l a b : fin k a -> fin l b -> 0 <= Z.max k l <= 98 -> fin (Z.max k l + 2) (f_add f32 a b).
Proof.
  intros A B H. cbn [f32 f_add]. destruct a as [s|s| |s m e], b as [s'|s'| |s' m' e']; cbn [fin] in A, B; try tauto; cbn [SFadd].
  - destruct (Bool.eqb s s'); exact I.
  - cbn [fin]. lia.
  - cbn [fin]. lia.
  - apply (sum_fin s m e s' m' e' k l Z.add); auto; lia.
Qed.
Lemma fin_sub k l a b : fin k a -> fin l b -> 0 <= Z.max k l <= 98 -> fin (Z.max k l + 2) (f_sub f32 a b).
Proof.
  intros A B H. cbn [f32 f_sub]. destruct a as [s|s| |s m e], b as [s'|s'| |s' m' e']; cbn [fin] in A, B; try tauto; cbn [SFsub].
  - destruct (Bool.eqb s (negb s')); exact I.
  - cbn [fin]. lia.
  - cbn [fin]. lia.
  - apply (sum_fin s m e s' m' e' k l Z.sub); auto; lia.
Qed.
Lemma digits_mul m m' : Zpos (digits2_pos (m * m')) <= Zpos (digits2_pos m) + Zpos (digits2_pos m').
Proof.
  change (Zdigits2 (Zpos (m * m')) <= Zpos (digits2_pos m) + Zpos (digits2_pos m')). apply zdigits_le; [lia|]. destruct (digits2_range m), (digits2_range m').
  rewrite Z.pow_add_r, Pos2Z.inj_mul by lia. nia.
Qed.
Lemma fin_mul k l a b : fin k a -> fin l b -> 0 <= k + l <= 100 -> fin (k + l + 1) (f_mul f32 a b).
Proof.
  intros A B H. cbn [f32 f_mul]. destruct a as [s|s| |s m e], b as [s'|s'| |s' m' e']; cbn [fin] in A, B; try tauto; cbn [SFmul]; try exact I.
  pose proof (digits_mul m m'). apply round_fin; cbn [Zdigits2]; lia.
Qed.
Lemma fin_half_of k a : fin k a -> 0 <= k <= 100 -> fin (k + 1) (f_div f32 a (f_of_usize f32 2)).
Proof.
  intros A H. cbn [f32 f_div f_of_usize]. change (binary_normalize 24 128 (Z.of_nat 2) 0 false) with (S754_finite false 8388608 (-22)).
  destruct a as [s|s| |s m e]; cbn [fin] in A; try tauto; cbn [SFdiv]; try exact I. destruct A as (A1 & A2 & A3).
  unfold SFdiv_core_binary. cbn [Zdigits2]. change (Zpos (digits2_pos 8388608)) with 24.
  set (e' := Z.min (fexp 24 128 (Zpos (digits2_pos m) + e - (24 + -22))) (e - -22)).
  assert (E1 : e' <= e + 22) by (unfold e'; lia). assert (E2 : e' <= k) by (unfold e', fexp, emin; lia). clearbody e'.
  destruct (digits2_range m) as [_ U]. set (d := Zpos (digits2_pos m)) in *.
  assert (HM : 0 <= (match e - -22 - e' with Z0 => Zpos m | Zpos _ => Z.shiftl (Zpos m) (e - -22 - e') | Zneg _ => 0 end) < 2 ^ (d + (e + 22 - e'))).
  { destruct (e - -22 - e') as [|p|p] eqn:K; [| |lia].
    - replace (d + (e + 22 - e')) with d by lia. lia.
    - rewrite Z.shiftl_mul_pow2 by lia. assert (0 < 2 ^ Zpos p) by (apply Z.pow_pos_nonneg; lia). rewrite Z.pow_add_r by lia. replace (e + 22 - e') with (Zpos p) by lia. nia. }
  set (m' := match e - -22 - e' with Z0 => Zpos m | Zpos _ => Z.shiftl (Zpos m) (e - -22 - e') | Zneg _ => 0 end) in *. clearbody m'.
  pose proof (Z_div_mod m' 8388608 ltac:(lia)) as DM. destruct (Z.div_eucl m' 8388608) as [q r]. destruct DM as [D1 D2].
  assert (Q0 : 0 <= q) by lia.
  assert (QD : Zdigits2 q <= Z.max 0 (d + (e + 22 - e') - 23)).
  { apply zdigits_le; [lia|]. split; [lia|]. apply (Z.mul_lt_mono_pos_l (2 ^ 23)); [lia|]. rewrite <- Z.pow_add_r by lia.
    eapply Z.le_lt_trans; [|eapply Z.lt_le_trans; [apply HM|apply Z.pow_le_mono_r; lia]]. change (2 ^ 23) with 8388608. lia. }
  apply round_fin; auto; lia.
Qed.

(** Shapes *)
Section Shapes.
Context (xo yo n levels : nat).
Hypothesis BN : Z.of_nat n <= 2 ^ 64.
Hypothesis BL : Z.of_nat levels + 1 < 2 ^ 64.
Hypothesis BX : Z.of_nat xo < 2 ^ 64.
Hypothesis BY : Z.of_nat yo < 2 ^ 64.
Local Notation o := (opts_at xo yo f32).
Ltac num := match goal with |- fin _ (f_of_usize _ ?x) => eapply fin_num with (k := 64); lia end.
Lemma small x k : match x with S754_finite _ m e => (Zpos (digits2_pos m) <=? 24) && (-149 <=? e) && (e <=? 104) && (Zpos (digits2_pos m) + e <=? k) | S754_zero _ => true | _ => false end = true ->
  fin k x.
Proof.
  destruct x; cbn [fin]; try discriminate; auto. rewrite !andb_true_iff, !Z.leb_le. lia.
Qed.
Lemma half_fin : fin 1 (f_half f32). Proof. apply small. reflexivity. Qed.
Lemma xs_fin : fin 1 (o_x_scale f32 o). Proof. apply small. reflexivity. Qed.
Lemma ys_fin : fin 1 (o_y_scale f32 o). Proof. apply small. reflexivity. Qed.
Lemma xo_fin : fin 66 (o_x_offset f32 o). Proof. apply (fin_num xo 65); lia. Qed.
Lemma yo_fin : fin 66 (o_y_offset f32 o). Proof. apply (fin_num yo 65); lia. Qed.
Ltac go :=
  first [eassumption | match goal with
  | |- fin _ (f_add _ _ _) => eapply fin_add; [go|go|lia]
  | |- fin _ (f_sub _ _ _) => eapply fin_sub; [go|go|lia]
  | |- fin _ (f_neg _ _) => eapply fin_neg; go
  | |- fin _ (f_mul _ _ _) => eapply fin_mul; [go|go|lia]
  | |- fin _ (f_half _) => exact half_fin
  | |- fin _ (f_of_usize _ 0) => apply (small _ 2); reflexivity
  | |- fin _ (f_of_usize _ 1) => apply (small _ 2); reflexivity
  | |- fin _ (f_of_usize _ 2) => apply (small _ 2); reflexivity
  | |- fin _ (f_of_usize _ _) => num
  | |- fin _ (o_x_scale _ _) => exact xs_fin
  | |- fin _ (o_y_scale _ _) => exact ys_fin
  | |- fin _ (o_x_offset _ _) => exact xo_fin
  | |- fin _ (o_y_offset _ _) => exact yo_fin
  | |- fin _ _ => apply (small _ 6); reflexivity
  end].
Ltac gone := eapply fin_mono; [go|lia].
Lemma fx i : (i < n)%nat -> fin 80 (state_x o i).
Proof. intros H. unfold state_x. gone. Qed.
Lemma fbase : fin 75 (base_y o levels).
Proof. unfold base_y. gone. Qed.
Lemma fy : fin 80 (state_y o levels).
Proof. pose proof fbase. unfold state_y. gone. Qed.
Lemma flink k : fin 75 (link_y o levels k).
Proof. unfold link_y. gone. Qed.
Lemma fpoint x y k l : fin k x -> fin l y -> 0 <= k <= 95 -> 0 <= l <= 95 -> finite_point f64 (at_ o x y).
Proof. intros X Y K L. split; cbn [fst snd at_]; eapply fin_finite; go. Qed.
Lemma f_line x y x' y' t a b c d : fin a x -> fin b y -> fin c x' -> fin d y' -> proper_width f64 t ->
  0 <= a <= 95 -> 0 <= b <= 95 -> 0 <= c <= 95 -> 0 <= d <= 95 -> drawable f64 (snd (line_to o x y x' y' t)).
Proof. intros. cbn [line_to snd drawable]. split; [eapply fpoint; eauto|]. split; [eapply fpoint; eauto|auto]. Qed.
Lemma f_circle x y r t a b : fin a x -> fin b y -> finite f64 (f_mul f32 r (o_x_scale f32 o)) /\ d_negative f64 (widen f64 (f_mul f32 r (o_x_scale f32 o))) = false -> proper_width f64 t ->
  0 <= a <= 95 -> 0 <= b <= 95 -> drawable f64 (snd (circle_at o x y r t)).
Proof. intros X Y [R N] W A B. cbn [circle_at snd drawable]. split; [eapply fpoint; eauto|]. auto. Qed.
Lemma f_text x y s a b : fin a x -> fin b y -> 0 <= a <= 95 -> 0 <= b <= 95 -> drawable f64 (snd (text_at o x y s)).
Proof. intros. cbn [text_at snd drawable]. eapply fpoint; eauto. Qed.
Ltac const := split; vm_compute; reflexivity.
Ltac line := eapply f_line; [go|go|go|go|const|lia|lia|lia|lia].
Ltac circle := eapply f_circle; [go|go|const|const|lia|lia].
Ltac text := eapply f_text; [go|go|lia|lia].
Local Notation ok := (fun cs : option colour * @shape f32 => drawable f64 (snd cs)).

Lemma entry_ok : Forall ok (entry_shapes o levels).
Proof. pose proof fy as Y. unfold entry_shapes. cbv zeta. repeat (apply Forall_cons; [line|]); apply Forall_nil. Qed.
Lemma state_ok i s : (i < n)%nat -> Forall ok (state_shapes o levels i s).
Proof.
  intros Hi. pose proof fy as Y. pose proof (fx i Hi) as X. unfold state_shapes. cbv zeta. rewrite !Forall_app. split; [|split; [|split]].
  - apply Forall_cons; [circle|apply Forall_nil].
  - destruct (st_accepting s); [apply Forall_cons; [circle|]|]; apply Forall_nil.
  - destruct (st_initial s); [|apply Forall_nil]. repeat (apply Forall_cons; [line|]); apply Forall_nil.
  - apply Forall_cons; [text|apply Forall_nil].
Qed.
Lemma link_ok l : (lk_from l < n)%nat -> (lk_to l < n)%nat -> Forall ok (link_shapes o levels l).
Proof.
  intros HF HT. pose proof (flink (lk_level l)) as Y. pose proof fbase as YB.
  pose proof (fx (lk_left l) ltac:(unfold lk_left; lia)) as XL. pose proof (fx (lk_right l) ltac:(unfold lk_right; lia)) as XR. pose proof (fx (lk_to l) HT) as XT.
  unfold link_shapes. cbv zeta.
  set (middle := f_div f32 _ _). assert (M : fin 85 middle) by (eapply fin_mono; [apply fin_half_of; [go|lia]|lia]). clearbody middle.
  set (back := if (lk_to l <? lk_from l)%nat then _ else _). assert (B : fin 2 back) by (unfold back; destruct (lk_to l <? lk_from l)%nat; go). clearbody back.
  set (goal := if (lk_from l <? lk_to l)%nat then _ else _). assert (G : fin 85 goal) by (unfold goal; destruct (lk_from l <? lk_to l)%nat; gone). clearbody goal.
  rewrite !Forall_app. split; [|split; [|split]].
  - repeat (apply Forall_cons; [line|]); apply Forall_nil.
  - change (o_middle_arrow f32 o) with true. cbv iota. repeat (apply Forall_cons; [line|]); apply Forall_nil.
  - change (o_end_arrow f32 o) with true. cbv iota. repeat (apply Forall_cons; [line|]); apply Forall_nil.
  - apply Forall_cons; [text|apply Forall_nil].
Qed.
Lemma shapes_ok states links : length states = n -> (forall l, In l links -> (lk_from l < n)%nat /\ (lk_to l < n)%nat) -> Forall ok (shapes o states links levels).
Proof.
  intros EN HL. unfold shapes. rewrite !Forall_app. split; [apply entry_ok|]. split.
  - apply Forall_concat. apply Forall_map. apply Forall_forall. intros [i s] H. apply in_combine_l, in_seq in H. apply state_ok. lia.
  - apply Forall_flat_map. apply Forall_forall. intros l Hl. destruct (HL l Hl). apply link_ok; auto.
Qed.
End Shapes.

Lemma any_marks states labels links levels : Z.of_nat (length states) < 2 ^ 32 -> layout (length states) labels links levels ->
  Forall (fun cs => drawable f64 (snd cs)) (shapes (default_options f32) states links levels).
Proof.
  intros H L. pose proof (levels_bound _ _ _ _ L) as B. apply (shapes_ok 0 0 (length states) levels); auto; try lia; try nia.
  intros l Hl. destruct (lo_real _ _ _ _ L l Hl) as (A & B' & _). auto.
Qed.
