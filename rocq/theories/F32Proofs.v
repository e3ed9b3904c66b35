(** * F32Proofs: half-integers below 2^23 are calculated with exactly *)
From Coq Require Import List NArith ZArith QArith Qpower Bool SpecFloat Lia Lqa.
From Coq Require Qcanon.
From Verif Require Import Base BaseLemmas Spec DrawModel DrawSpec F32Model F32Spec.
Import ListNotations.
Local Open Scope Z_scope.

(** [x] is [z / 2] *)
Definition rep (x : spec_float) (z : Z) : Prop :=
  match x with
  | S754_zero _ => z = 0
  | S754_finite s m e => 2 ^ 23 <= Zpos m < 2 ^ 24 /\ -24 <= e <= -1 /\ (if s then Zneg m else Zpos m) = z * 2 ^ (-1 - e)
  | _ => False
  end.

Lemma digits2_range p : 2 ^ (Zpos (digits2_pos p) - 1) <= Zpos p < 2 ^ Zpos (digits2_pos p).
Proof.
  induction p as [p IH|p IH|]; cbn [digits2_pos]; [| |simpl; lia].
  all: rewrite Pos2Z.inj_succ, ?Pos2Z.inj_xI, ?(Pos2Z.inj_xO p); replace (Z.succ (Zpos (digits2_pos p)) - 1) with (Zpos (digits2_pos p) - 1 + 1) by lia;
    unfold Z.succ; rewrite !Z.pow_add_r by lia; rewrite Z.pow_1_r; lia.
Qed.
Lemma digits2_unique p d : 0 < d -> 2 ^ (d - 1) <= Zpos p < 2 ^ d -> Zpos (digits2_pos p) = d.
Proof.
  intros Hd [L U]. destruct (digits2_range p) as [L' U'].
  assert (d - 1 < Zpos (digits2_pos p)) by (apply (Z.pow_lt_mono_r_iff 2); lia).
  assert (Zpos (digits2_pos p) - 1 < d) by (apply (Z.pow_lt_mono_r_iff 2); lia). lia.
Qed.

(** Shifting to the right without loss *)
Lemma shr_exact n : forall m, 0 < m ->
  iter_pos shr_1 n {| shr_m := m * 2 ^ Zpos n; shr_r := false; shr_s := false |} = {| shr_m := m; shr_r := false; shr_s := false |}.
Proof.
  assert (K : forall m, 0 < m -> shr_1 {| shr_m := m * 2; shr_r := false; shr_s := false |} = {| shr_m := m; shr_r := false; shr_s := false |}).
  { intros m Hm. destruct m as [|m|m]; try lia. rewrite Z.mul_comm. reflexivity. }
  induction n as [n IH|n IH|]; intros m Hm; cbn [iter_pos].
  - rewrite Pos2Z.inj_xI. replace (m * 2 ^ (2 * Zpos n + 1)) with (m * 2 ^ Zpos n * 2 ^ Zpos n * 2).
    2: { replace (2 * Zpos n + 1) with (Zpos n + Zpos n + 1) by lia. rewrite !Z.pow_add_r by lia. ring. }
    assert (0 < 2 ^ Zpos n) by (apply Z.pow_pos_nonneg; lia).
    rewrite K, !IH; auto; repeat apply Z.mul_pos_pos; auto.
  - rewrite (Pos2Z.inj_xO n). replace (m * 2 ^ (2 * Zpos n)) with (m * 2 ^ Zpos n * 2 ^ Zpos n).
    2: { replace (2 * Zpos n) with (Zpos n + Zpos n) by lia. rewrite Z.pow_add_r by lia. ring. }
    assert (0 < 2 ^ Zpos n) by (apply Z.pow_pos_nonneg; lia). rewrite !IH; auto; repeat apply Z.mul_pos_pos; auto.
  - rewrite Z.pow_1_r. auto.
Qed.

(** A number with at least 24 digits is rounded to itself if it is a half-integer below 2^23. *)
Lemma round_aux_exact s M E z : 24 <= Zpos (digits2_pos M) -> E <= -1 -> 0 < z < 2 ^ 24 -> Zpos M = z * 2 ^ (-1 - E) ->
  rep (binary_round_aux 24 128 s (Zpos M) E loc_Exact) (if s then - z else z).
Proof.
  intros HD HE Hz HM. destruct (digits2_range M) as [L U]. set (d := Zpos (digits2_pos M)) in *. set (k := -1 - E) in *.
  assert (P : 0 < 2 ^ k) by (apply Z.pow_pos_nonneg; lia).
  assert (Hk : d - 1 < 24 + k). { apply (Z.pow_lt_mono_r_iff 2); try lia. rewrite Z.pow_add_r by lia. nia. }
  assert (Hk' : k < d). { apply (Z.pow_lt_mono_r_iff 2); try lia. nia. }
  assert (FE : fexp 24 128 (d + E) - E = d - 24). { unfold fexp, emin. lia. }
  set (m := z * 2 ^ (k - (d - 24))).
  assert (EM : Zpos M = m * 2 ^ (d - 24)). { unfold m. rewrite <- Z.mul_assoc, <- Z.pow_add_r by lia. rewrite HM. f_equal. f_equal. lia. }
  assert (Pd : 0 < 2 ^ (d - 24)) by (apply Z.pow_pos_nonneg; lia).
  assert (Rm : 2 ^ 23 <= m < 2 ^ 24).
  { split.
    - apply (Z.mul_le_mono_pos_r _ _ (2 ^ (d - 24))); auto. rewrite <- Z.pow_add_r, <- EM by lia. replace (23 + (d - 24)) with (d - 1) by lia. auto.
    - apply (Z.mul_lt_mono_pos_r (2 ^ (d - 24))); auto. rewrite <- Z.pow_add_r, <- EM by lia. replace (24 + (d - 24)) with d by lia. auto. }
  assert (S1 : shr_fexp 24 128 (Zpos M) E loc_Exact = ({| shr_m := m; shr_r := false; shr_s := false |}, E + (d - 24))).
  { unfold shr_fexp. cbn [Zdigits2 shr_record_of_loc]. fold d. rewrite FE. unfold shr. destruct (d - 24) as [|n|n] eqn:En; try lia.
    - rewrite EM. rewrite Z.pow_0_r, Z.mul_1_r, Z.add_0_r. reflexivity.
    - rewrite EM, shr_exact by lia. reflexivity. }
  unfold binary_round_aux. rewrite S1. cbn [shr_m loc_of_shr_record round_nearest_even].
  assert (Em : m = z * 2 ^ (k - (d - 24))) by reflexivity. clearbody m. destruct m as [|pm|pm]; try lia.
  assert (Dm : Zpos (digits2_pos pm) = 24) by (apply digits2_unique; lia).
  assert (S2 : shr_fexp 24 128 (Zpos pm) (E + (d - 24)) loc_Exact = ({| shr_m := Zpos pm; shr_r := false; shr_s := false |}, E + (d - 24))).
  { unfold shr_fexp. cbn [Zdigits2 shr_record_of_loc]. rewrite Dm. replace (fexp 24 128 (24 + (E + (d - 24))) - (E + (d - 24))) with 0; [reflexivity|].
    unfold fexp, emin. lia. }
  rewrite S2. cbn [shr_m]. replace (E + (d - 24) <=? 128 - 24) with true by (symmetry; apply Z.leb_le; lia).
  cbn [rep]. split; [exact Rm|].
  assert (Z1 : 1 <= 2 ^ (k - (d - 24))). { assert (0 < 2 ^ (k - (d - 24))) by (apply Z.pow_pos_nonneg; lia). lia. }
  assert (k - (d - 24) < 24). { apply (Z.pow_lt_mono_r_iff 2); try lia. }
  split; [lia|]. replace (-1 - (E + (d - 24))) with (k - (d - 24)) by (unfold k; lia). destruct s; [|exact Em].
  change (Zneg pm) with (- Zpos pm). rewrite Z.mul_opp_l, Em. reflexivity.
Qed.

Lemma shift_pos_mul d m : Zpos (shift_pos d m) = Zpos m * 2 ^ Zpos d.
Proof. rewrite shift_pos_correct. change (Z.pow_pos 2 d) with (2 ^ Zpos d). ring. Qed.
Lemma round_exact s M E z : E <= 0 -> 0 < z < 2 ^ 24 -> 2 * Zpos M = z * 2 ^ (- E) ->
  rep (binary_round 24 128 s M E) (if s then - z else z).
Proof.
  intros HE Hz HM. destruct (digits2_range M) as [L U]. set (d := Zpos (digits2_pos M)) in *.
  assert (B : 2 * Zpos M < 2 ^ (24 - E)). { replace (24 - E) with (24 + - E) by lia. rewrite Z.pow_add_r, HM by lia. apply Z.mul_lt_mono_pos_r; [apply Z.pow_pos_nonneg; lia|lia]. }
  assert (HE2 : d <= 23 - E).
  { assert (d - 1 < 23 - E); [|lia]. apply (Z.pow_lt_mono_r_iff 2); try lia. replace (24 - E) with (23 - E + 1) in B by lia.
    rewrite Z.pow_add_r in B by lia. lia. }
  assert (B2 : 2 ^ (- E) <= 2 * Zpos M). { rewrite HM. assert (0 < 2 ^ (- E)) by (apply Z.pow_pos_nonneg; lia). nia. }
  assert (HE3 : - E <= d).
  { assert (- E < d + 1); [|lia]. apply (Z.pow_lt_mono_r_iff 2); try lia. rewrite Z.pow_add_r by lia. lia. }
  assert (FE : fexp 24 128 (d + E) - E = d - 24). { unfold fexp, emin. lia. }
  unfold binary_round, shl_align. fold d. rewrite FE. destruct (d - 24) as [|k|k] eqn:K.
  - apply round_aux_exact; [lia|lia|lia|]. apply (Z.mul_reg_l _ _ 2); [lia|]. rewrite HM. replace (- E) with (-1 - E + 1) by lia.
    rewrite Z.pow_add_r by lia. ring.
  - apply round_aux_exact; [lia|lia|lia|]. apply (Z.mul_reg_l _ _ 2); [lia|]. rewrite HM. replace (- E) with (-1 - E + 1) by lia.
    rewrite Z.pow_add_r by lia. ring.
  - replace (fexp 24 128 (d + E)) with (E + (d - 24)) by lia.
    assert (P : 0 < 2 ^ Zpos k) by (apply Z.pow_pos_nonneg; lia).
    assert (D : Zpos (digits2_pos (shift_pos k M)) = 24).
    { apply digits2_unique; [lia|]. rewrite shift_pos_mul. replace (24 - 1) with (d - 1 + Zpos k) by lia. replace 24 with (d + Zpos k) by lia.
      rewrite !Z.pow_add_r by lia. nia. }
    apply round_aux_exact; [lia|lia|lia|]. rewrite shift_pos_mul. replace (-1 - (E + (d - 24))) with (-1 - E + Zpos k) by lia.
    apply (Z.mul_reg_l _ _ 2); [lia|]. rewrite Z.mul_assoc, HM.
    replace (z * 2 ^ (- E) * 2 ^ Zpos k) with (z * 2 ^ (- E + Zpos k)) by (rewrite Z.pow_add_r by lia; ring).
    replace (- E + Zpos k) with (-1 - E + Zpos k + 1) by lia. rewrite (Z.pow_add_r 2 (-1 - E + Zpos k) 1) by lia. ring.
Qed.
Lemma normalize_exact S E b z : E <= 0 -> - 2 ^ 24 < z < 2 ^ 24 -> 2 * S = z * 2 ^ (- E) -> rep (binary_normalize 24 128 S E b) z.
Proof.
  intros HE Hz HS. assert (P : 0 < 2 ^ (- E)) by (apply Z.pow_pos_nonneg; lia). destruct S as [|M|M]; cbn [binary_normalize].
  - cbn. nia.
  - assert (0 < z) by nia. apply (round_exact false M E z); auto; lia.
  - assert (z < 0) by nia. replace z with (- (- z)) by ring. apply (round_exact true M E (- z)); auto; try lia.
Qed.

Lemma shl_align_fst m e e' : e' <= e -> Zpos (fst (shl_align m e e')) = Zpos m * 2 ^ (e - e').
Proof.
  intros H. unfold shl_align. destruct (e' - e) as [|d|d] eqn:K; [|lia|].
  - replace (e - e') with 0 by lia. cbn [fst]. lia.
  - cbn [fst]. rewrite shift_pos_mul. replace (e - e') with (Zpos d) by lia. reflexivity.
Qed.
Lemma rep_align s m e z e' : e' <= e -> rep (S754_finite s m e) z -> 2 * cond_Zopp s (Zpos (fst (shl_align m e e'))) = z * 2 ^ (- e').
Proof.
  intros He (_ & R & Hm). rewrite (shl_align_fst _ _ _ He).
  replace (cond_Zopp s (Zpos m * 2 ^ (e - e'))) with ((if s then Zneg m else Zpos m) * 2 ^ (e - e')) by (destruct s; cbn [cond_Zopp]; lia).
  rewrite Hm. replace (- e') with (-1 - e + (e - e') + 1) by lia. rewrite !Z.pow_add_r by lia. ring.
Qed.
Lemma rep_neg a x : rep a x -> rep (SFopp a) (- x).
Proof.
  destruct a as [s|s| |s m e]; cbn [rep SFopp]; try tauto; [lia|]. intros (H1 & H2 & H3). split; [auto|]. split; [auto|].
  destruct s; cbn [negb]; rewrite Z.mul_opp_l, <- H3; reflexivity.
Qed.
Lemma rep_add a b x y : rep a x -> rep b y -> - 2 ^ 24 < x + y < 2 ^ 24 -> rep (SFadd 24 128 a b) (x + y).
Proof.
  intros Ha Hb B. destruct a as [s|s| |s m e], b as [s'|s'| |s' m' e']; cbn [rep] in Ha, Hb; try tauto; cbn [SFadd].
  - subst. destruct (Bool.eqb s s'); reflexivity.
  - subst. exact Hb.
  - subst. rewrite Z.add_0_r. exact Ha.
  - assert (L1 : Z.min e e' <= e) by lia. assert (L2 : Z.min e e' <= e') by lia. apply normalize_exact; [lia|auto|].
    rewrite Z.mul_add_distr_l, (rep_align s m e x _ L1 Ha), (rep_align s' m' e' y _ L2 Hb). ring.
Qed.
Lemma rep_sub a b x y : rep a x -> rep b y -> - 2 ^ 24 < x - y < 2 ^ 24 -> rep (SFsub 24 128 a b) (x - y).
Proof.
  intros Ha Hb B. pose proof (rep_neg b y) as N. destruct a as [s|s| |s m e], b as [s'|s'| |s' m' e']; cbn [rep] in Ha, Hb; try tauto; cbn [SFsub].
  - subst. destruct (Bool.eqb s (negb s')); reflexivity.
  - subst. apply N. exact Hb.
  - subst. rewrite Z.sub_0_r. exact Ha.
  - assert (L1 : Z.min e e' <= e) by lia. assert (L2 : Z.min e e' <= e') by lia. apply normalize_exact; [lia|auto|].
    rewrite Z.mul_sub_distr_l, (rep_align s m e x _ L1 Ha), (rep_align s' m' e' y _ L2 Hb). ring.
Qed.
Lemma rep_mul a b x y c : rep a x -> rep b y -> x * y = 2 * c -> - 2 ^ 24 < c < 2 ^ 24 -> rep (SFmul 24 128 a b) c.
Proof.
  intros Ha Hb EC B. destruct a as [s|s| |s m e], b as [s'|s'| |s' m' e']; cbn [rep] in Ha, Hb; try tauto; cbn [SFmul].
  - subst. cbn. lia.
  - subst. cbn. lia.
  - subst. cbn. lia.
  - destruct Ha as (M1 & E1 & H1), Hb as (M2 & E2 & H2).
    assert (HP : Zpos (m * m') = Z.abs c * 2 ^ (-1 - (e + e'))).
    { assert (A1 : Zpos m = Z.abs x * 2 ^ (-1 - e)). { rewrite <- (Z.abs_eq (2 ^ (-1 - e))) by (apply Z.pow_nonneg; lia). rewrite <- Z.abs_mul, <- H1. destruct s; reflexivity. }
      assert (A2 : Zpos m' = Z.abs y * 2 ^ (-1 - e')). { rewrite <- (Z.abs_eq (2 ^ (-1 - e'))) by (apply Z.pow_nonneg; lia). rewrite <- Z.abs_mul, <- H2. destruct s'; reflexivity. }
      assert (A3 : Z.abs x * Z.abs y = 2 * Z.abs c) by (rewrite <- Z.abs_mul, EC, Z.abs_mul; reflexivity).
      rewrite Pos2Z.inj_mul, A1, A2. replace (-1 - (e + e')) with (-1 - e + (-1 - e') + 1) by lia. rewrite !Z.pow_add_r by lia.
      transitivity (Z.abs x * Z.abs y * (2 ^ (-1 - e) * 2 ^ (-1 - e'))); [ring|]. rewrite A3. ring. }
    assert (P1 : 0 < 2 ^ (-1 - e)) by (apply Z.pow_pos_nonneg; lia). assert (P2 : 0 < 2 ^ (-1 - e')) by (apply Z.pow_pos_nonneg; lia).
    assert (SC : c = if xorb s s' then - Z.abs c else Z.abs c).
    { destruct s, s'; cbn [xorb]; [assert (0 < c)|assert (c < 0)|assert (c < 0)|assert (0 < c)]; try lia.
      - assert (x < 0) by nia. assert (y < 0) by nia. nia.
      - assert (x < 0) by nia. assert (0 < y) by nia. nia.
      - assert (0 < x) by nia. assert (y < 0) by nia. nia.
      - assert (0 < x) by nia. assert (0 < y) by nia. nia. }
    assert (NZ : 0 < Z.abs c). { assert (0 < 2 ^ (-1 - (e + e'))) by (apply Z.pow_pos_nonneg; lia). nia. }
    rewrite SC. apply round_aux_exact; [|lia|lia|exact HP].
    destruct (digits2_range (m * m')) as [_ U]. assert (23 < Zpos (digits2_pos (m * m'))); [|lia]. apply (Z.pow_lt_mono_r_iff 2); try lia.
Qed.
Lemma rep_div2 a c : rep a (2 * c) -> - 2 ^ 24 < c < 2 ^ 24 -> rep (SFdiv 24 128 a (S754_finite false 8388608 (-22))) c.
Proof.
  intros Ha B. destruct a as [s|s| |s m e]; cbn [rep] in Ha; try tauto; cbn [SFdiv].
  - cbn. lia.
  - destruct Ha as (M & E & H).
    assert (C : SFdiv_core_binary 24 128 (Zpos m) e 8388608 (-22) = (Zpos (xO m), e - 2, loc_Exact)).
    { unfold SFdiv_core_binary. cbn [Zdigits2]. rewrite (digits2_unique m 24) by lia. change (Zpos (digits2_pos 8388608)) with 24.
      replace (fexp 24 128 (24 + e - (24 + -22))) with (e - 2) by (unfold fexp, emin; lia).
      replace (Z.min (e - 2) (e - -22)) with (e - 2) by lia. replace (e - -22 - (e - 2)) with 24 by lia.
      rewrite Z.shiftl_mul_pow2 by lia.
      pose proof (Z_div_mod (Zpos m * 2 ^ 24) 8388608 ltac:(lia)) as DM. destruct (Z.div_eucl (Zpos m * 2 ^ 24) 8388608) as [q r].
      destruct DM as [D1 D2]. change (2 ^ 24) with 16777216 in D1. assert (q = Zpos (xO m)) as -> by lia. assert (r = 0) as -> by lia. reflexivity. }
    rewrite C. rewrite xorb_false_r. assert (P : 0 < 2 ^ (-1 - e)) by (apply Z.pow_pos_nonneg; lia).
    assert (HP : Zpos (xO m) = Z.abs c * 2 ^ (-1 - (e - 2))).
    { replace (-1 - (e - 2)) with (-1 - e + 2) by lia. rewrite Z.pow_add_r by lia. destruct s.
      - assert (c < 0) by nia. lia.
      - assert (0 < c) by nia. lia. }
    assert (SC : c = if s then - Z.abs c else Z.abs c). { destruct s; [assert (c < 0) by nia|assert (0 < c) by nia]; lia. }
    rewrite SC. apply round_aux_exact; [|lia| |exact HP].
    + cbn [digits2_pos]. rewrite Pos2Z.inj_succ, (digits2_unique m 24); lia.
    + split; [|lia]. destruct s; [assert (c < 0) by nia|assert (0 < c) by nia]; lia.
Qed.
Lemma rep_num n : Z.of_nat n < 2 ^ 23 -> rep (f_of_usize f32 n) (2 * Z.of_nat n).
Proof. intros H. cbn [f_of_usize f32]. apply normalize_exact; [lia|lia|]. cbn. ring. Qed.
Lemma rep_half : rep (f_half f32) 1.
Proof. cbn. lia. Qed.

(** The values *)
Lemma rep_value x z : rep x z -> f32_value x = Some (Qred (z # 2)).
Proof.
  destruct x as [s|s| |s m e]; cbn [rep f32_value]; try tauto.
  - intros ->. reflexivity.
  - intros (_ & E & H). f_equal. apply Qred_complete. rewrite H, inject_Z_mult, (Zpower_Qpower 2 (-1 - e)) by lia.
    change (inject_Z 2) with 2%Q. rewrite <- Qmult_assoc, <- Qpower_plus by discriminate. replace (-1 - e + e) with (-1) by lia.
    rewrite (Qmake_Qdiv z 2). reflexivity.
Qed.

(** ** The same number in single precision and as a rational number *)
Definition tw (x : F f32) (q : F rationals) (z : Z) : Prop := rep x z /\ q = Qred (z # 2).
Lemma tw_value x q z : tw x q z -> f32_value x = Some q.
Proof. intros [R ->]. apply rep_value; auto. Qed.
Lemma tw_add a b q r x y : tw a q x -> tw b r y -> - 2 ^ 24 < x + y < 2 ^ 24 -> tw (f_add f32 a b) (f_add rationals q r) (x + y).
Proof.
  intros [R1 ->] [R2 ->] B. split; [apply rep_add; auto|]. cbn [f_add rationals]. apply Qred_complete. rewrite !Qred_correct.
  rewrite !Qmake_Qdiv, inject_Z_plus. field.
Qed.
Lemma tw_sub a b q r x y : tw a q x -> tw b r y -> - 2 ^ 24 < x - y < 2 ^ 24 -> tw (f_sub f32 a b) (f_sub rationals q r) (x - y).
Proof.
  intros [R1 ->] [R2 ->] B. split; [apply rep_sub; auto|]. cbn [f_sub rationals]. apply Qred_complete. rewrite !Qred_correct.
  rewrite !Qmake_Qdiv. unfold Z.sub. rewrite inject_Z_plus, inject_Z_opp. field.
Qed.
Lemma tw_neg a q x : tw a q x -> tw (f_neg f32 a) (f_neg rationals q) (- x).
Proof.
  intros [R1 ->]. split; [apply rep_neg; auto|]. cbn [f_neg rationals]. apply Qred_complete. rewrite !Qred_correct.
  rewrite !Qmake_Qdiv, inject_Z_opp. field.
Qed.
Lemma tw_mul a b q r x y c : tw a q x -> tw b r y -> x * y = 2 * c -> - 2 ^ 24 < c < 2 ^ 24 -> tw (f_mul f32 a b) (f_mul rationals q r) c.
Proof.
  intros [R1 ->] [R2 ->] E B. split; [apply (rep_mul a b x y); auto|]. cbn [f_mul rationals]. apply Qred_complete. rewrite !Qred_correct.
  rewrite !Qmake_Qdiv. apply (f_equal inject_Z) in E. rewrite !inject_Z_mult in E.
  transitivity (inject_Z x * inject_Z y / (inject_Z 2 * inject_Z 2))%Q; [field|]. rewrite E. field.
Qed.
Lemma tw_num n : Z.of_nat n < 2 ^ 23 -> tw (f_of_usize f32 n) (f_of_usize rationals n) (2 * Z.of_nat n).
Proof.
  intros H. split; [apply rep_num; auto|]. cbn [f_of_usize rationals].
  transitivity (Qred (inject_Z (Z.of_nat n))).
  - symmetry. apply Qcanon.Qred_identity. cbn. apply Z.gcd_1_r.
  - apply Qred_complete. rewrite Qmake_Qdiv, inject_Z_mult. field.
Qed.
Lemma tw_half : tw (f_half f32) (f_half rationals) 1.
Proof. split; [apply rep_half|reflexivity]. Qed.
Lemma tw_div2 a q c : tw a q (2 * c) -> - 2 ^ 24 < c < 2 ^ 24 ->
  tw (f_div f32 a (f_of_usize f32 2)) (f_div rationals q (f_of_usize rationals 2)) c.
Proof.
  intros [R ->] B. split; [apply rep_div2; auto|]. cbn [f_div f_of_usize rationals]. apply Qred_complete. rewrite Qred_correct.
  rewrite !Qmake_Qdiv, inject_Z_mult. change (inject_Z (Z.of_nat 2)) with (inject_Z 2). field.
Qed.
