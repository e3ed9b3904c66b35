(** * RoundProofs: the numbers of SpecFloat with 24 bits are rounded to the nearest number, ties to even *)
From Coq Require Import List ZArith QArith Qpower Qabs Bool SpecFloat Lia.
From Verif Require Import Base DrawModel CanvasModel F32Model F32Spec F32Proofs F64Model F64Spec PointModel PointSpec PointProofs.
Import ListNotations.
Local Open Scope Z_scope.

(** ** Shifting to the right *)
Fixpoint times {A} (n : nat) (f : A -> A) (x : A) : A := match n with O => x | S n => f (times n f x) end.
Lemma iter_pos_nat {A} (f : A -> A) p : forall x, iter_pos f p x = times (Pos.to_nat p) f x.
Proof.
  assert (K : forall n m x, times (n + m) f x = times n f (times m f x)) by (induction n as [|n IH]; intros; cbn; [|rewrite IH]; reflexivity).
  assert (K1 : forall n x, times n f (f x) = f (times n f x)) by (induction n as [|n IH]; intros; cbn; [|rewrite IH]; reflexivity).
  induction p as [p IH|p IH|]; intros x; cbn [iter_pos].
  - rewrite !IH, <- K, Pos2Nat.inj_xI. replace (S (2 * Pos.to_nat p))%nat with (S (Pos.to_nat p + Pos.to_nat p)) by lia. cbn [times]. apply K1.
  - rewrite !IH, <- K, Pos2Nat.inj_xO. f_equal. lia.
  - reflexivity.
Qed.
Lemma shr_1_is m r s : 0 <= m -> shr_1 {| shr_m := m; shr_r := r; shr_s := s |} = {| shr_m := m / 2; shr_r := Z.odd m; shr_s := r || s |}.
Proof.
  intros H. destruct m as [|[p|p|]|p]; try lia; cbn [shr_1]; f_equal.
  - rewrite <- (Z.div2_div (Zpos p~1)). reflexivity.
  - rewrite <- (Z.div2_div (Zpos p~0)). reflexivity.
Qed.
Lemma shr_steps n M : 0 <= M -> let r := times n shr_1 {| shr_m := M; shr_r := false; shr_s := false |} in
  shr_m r = M / 2 ^ Z.of_nat n /\ (shr_r r || shr_s r = negb (M mod 2 ^ Z.of_nat n =? 0)) /\
  (forall n', n = S n' -> shr_r r = Z.odd (M / 2 ^ Z.of_nat n') /\ shr_s r = negb (M mod 2 ^ Z.of_nat n' =? 0)).
Proof.
  intros H. induction n as [|n IH].
  - cbn. rewrite Z.div_1_r, Z.mod_1_r. split; [auto|split; [auto|discriminate]].
  - cbn zeta in *. cbn [times]. destruct (times n shr_1 _) as [m r s]. cbn [shr_m shr_r shr_s] in IH. destruct IH as (E1 & E2 & _).
    assert (P : 0 < 2 ^ Z.of_nat n) by (apply Z.pow_pos_nonneg; lia).
    assert (Hm : 0 <= m) by (subst m; apply Z.div_pos; lia).
    rewrite shr_1_is by auto. cbn [shr_m shr_r shr_s].
    assert (E : 2 ^ Z.of_nat (S n) = 2 ^ Z.of_nat n * 2) by (rewrite Nat2Z.inj_succ, Z.pow_succ_r; lia).
    split; [subst m; rewrite E, Z.div_div by lia; reflexivity|].
    assert (O : Z.odd m || (r || s) = negb (M mod 2 ^ Z.of_nat (S n) =? 0)).
    { rewrite E2, E, Z.rem_mul_r by lia. rewrite <- E1. rewrite (Zmod_odd m). pose proof (Z.mod_pos_bound M (2 ^ Z.of_nat n) P).
      destruct (Z.odd m); cbn [orb].
      - symmetry. apply negb_true_iff, Z.eqb_neq. lia.
      - rewrite Z.mul_0_r, Z.add_0_r. reflexivity. }
    split; [exact O|]. intros n' X. injection X as <-. subst m. auto.
Qed.

(** ** Rounding to an integer *)
Definition nearest_int (M k q : Z) : Prop := 0 <= q /\ 2 * Z.abs (M - q * 2 ^ k) <= 2 ^ k /\ (2 * Z.abs (M - q * 2 ^ k) = 2 ^ k -> Z.even q = true).
Lemma shr_nearest M E k : 0 < M -> 0 <= k ->
  let '(r, e) := shr {| shr_m := M; shr_r := false; shr_s := false |} E k in
  e = E + k /\ nearest_int M k (round_nearest_even (shr_m r) (loc_of_shr_record r)).
Proof.
  intros HM Hk. destruct k as [|n|n]; try lia; cbn [shr].
  - split; [lia|]. cbn. unfold nearest_int. rewrite Z.pow_0_r. repeat split; try lia.
  - split; [reflexivity|]. rewrite iter_pos_nat. pose proof (shr_steps (Pos.to_nat n) M) as H. cbn zeta in H. destruct H as (E1 & _ & E3); [lia|].
    destruct (times (Pos.to_nat n) shr_1 _) as [m r s]. cbn [shr_m shr_r shr_s] in *.
    destruct (Pos2Nat.is_succ n) as (j & Ej). destruct (E3 j Ej) as (Er & Es). rewrite positive_nat_Z in E1. clear E3.
    assert (P : 0 < 2 ^ Z.of_nat j) by (apply Z.pow_pos_nonneg; lia).
    assert (PE : 2 ^ Zpos n = 2 * 2 ^ Z.of_nat j). { rewrite <- (positive_nat_Z n), Ej, Nat2Z.inj_succ, Z.pow_succ_r; lia. }
    rewrite PE in E1. set (h := 2 ^ Z.of_nat j) in *. unfold nearest_int. rewrite PE.
    pose proof (Z.div_mod M h ltac:(lia)) as D1. pose proof (Z.mod_pos_bound M h P) as B1.
    assert (D2 : M / h = 2 * m + (if r then 1 else 0)). { rewrite E1, (Z.mul_comm 2 h), <- Z.div_div by lia. rewrite Er. pose proof (Z.div_mod (M / h) 2 ltac:(lia)) as X. rewrite Zmod_odd in X. exact X. }
    set (low := M mod h) in *. set (a := M / h) in *. clearbody low a h.
    assert (Hm : 0 <= m). { assert (0 <= a) by nia. destruct r; lia. }
    assert (R : M = m * (2 * h) + (if r then h else 0) + low) by (destruct r; subst a; lia).
    clear E1 Er D1 D2. destruct r, s; cbn [loc_of_shr_record round_nearest_even].
    + symmetry in Es. apply negb_true_iff, Z.eqb_neq in Es. replace (M - (m + 1) * (2 * h)) with (low - h) by lia. repeat split; lia.
    + symmetry in Es. apply negb_false_iff, Z.eqb_eq in Es. destruct (Z.even m) eqn:Ev.
      * replace (M - m * (2 * h)) with h by lia. repeat split; try lia. intros _. exact Ev.
      * replace (M - (m + 1) * (2 * h)) with (- h) by lia. repeat split; try lia. intros _. rewrite Z.even_add, Ev. reflexivity.
    + symmetry in Es. apply negb_true_iff, Z.eqb_neq in Es. replace (M - m * (2 * h)) with low by lia. repeat split; lia.
    + symmetry in Es. apply negb_false_iff, Z.eqb_eq in Es. replace (M - m * (2 * h)) with 0 by lia. repeat split; lia.
Qed.

(** ** Rounding to a number of single precision: [M * 2 ^ E] becomes [q * 2 ^ e] *)
Lemma round_aux_is s M E : let e := fexp 24 128 (Zpos (digits2_pos M) + E) in E <= e ->
  exists q, nearest_int (Zpos M) (e - E) q /\ q <= 2 ^ 24 /\ (q < 2 ^ 23 -> e = -149) /\
  (e <> -149 -> 2 ^ 23 * 2 ^ (e - E) <= Zpos M) /\ Zpos M < 2 ^ 24 * 2 ^ (e - E) /\
  binary_round_aux 24 128 s (Zpos M) E loc_Exact =
    match q with
    | Zpos p => if q =? 2 ^ 24 then (if e + 1 <=? 104 then S754_finite s 8388608 (e + 1) else S754_infinity s)
                else (if e <=? 104 then S754_finite s p e else S754_infinity s)
    | _ => S754_zero s
    end.
Proof.
  intros e HE. pose proof (shr_nearest (Zpos M) E (e - E)) as H. unfold binary_round_aux, shr_fexp at 1. cbn [Zdigits2 shr_record_of_loc]. fold e.
  destruct (shr {| shr_m := Zpos M; shr_r := false; shr_s := false |} E (e - E)) as [r e1]. destruct H as (-> & N); [lia|lia|].
  replace (E + (e - E)) with e by lia. set (q := round_nearest_even (shr_m r) (loc_of_shr_record r)) in *. clearbody q.
  destruct (digits2_range M) as [L U]. set (d := Zpos (digits2_pos M)) in *. destruct N as (N1 & N2 & N3).
  assert (Hd : d - (e - E) <= 24). { unfold e, fexp, emin. lia. }
  assert (Pk : 0 < 2 ^ (e - E)) by (apply Z.pow_pos_nonneg; lia).
  assert (UB : Zpos M < 2 ^ 24 * 2 ^ (e - E)). { rewrite <- Z.pow_add_r by lia. eapply Z.lt_le_trans; [exact U|]. apply Z.pow_le_mono_r; lia. }
  assert (Hq : q <= 2 ^ 24). { set (K := 2 ^ (e - E)) in *. clearbody K. change (2 ^ 24) with 16777216 in *. clear - UB N2 Pk. nia. }
  assert (He : q < 2 ^ 23 -> e = -149).
  { intros Q. destruct (Z.eq_dec e (-149)) as [|NE]; auto. exfalso. assert (X : d - 1 = 23 + (e - E)) by (unfold e, fexp, emin in *; lia).
    rewrite X, Z.pow_add_r in L by lia. set (K := 2 ^ (e - E)) in *. clearbody K. change (2 ^ 23) with 8388608 in *. clear - L N2 Pk Q N1. nia. }
  exists q. split; [split; auto|]. split; [exact Hq|]. split; [exact He|].
  split. { intros NE. rewrite <- Z.pow_add_r by lia. replace (23 + (e - E)) with (d - 1) by (unfold e, fexp, emin in *; lia). exact L. }
  split; [exact UB|].
  destruct q as [|p|p]; [|clear N2 N3|lia].
  { cbn [Zdigits2 shr_record_of_loc shr_fexp]. unfold shr_fexp. cbn [Zdigits2 shr_record_of_loc].
    replace (fexp 24 128 (0 + e) - e) with 0; [reflexivity|]. rewrite He by lia. reflexivity. }
  unfold shr_fexp. cbn [Zdigits2 shr_record_of_loc]. assert (Ee : -149 <= e) by (unfold e, fexp, emin; lia). destruct (Z.eqb_spec (Zpos p) (2 ^ 24)) as [Q|NQ].
  - change (2 ^ 24) with 16777216 in Q. injection Q as ->. change (Zpos (digits2_pos 16777216)) with 25.
    replace (fexp 24 128 (25 + e) - e) with 1 by (unfold fexp, emin; lia). reflexivity.
  - destruct (digits2_range p) as [L' U']. assert (D : Zpos (digits2_pos p) <= 24). { assert (Zpos (digits2_pos p) - 1 < 24); [|lia]. apply (Z.pow_lt_mono_r_iff 2); lia. }
    assert (D' : e = -149 \/ Zpos (digits2_pos p) = 24).
    { destruct (Z_lt_ge_dec (Zpos p) (2 ^ 23)) as [Q|Q]; [left; auto|right]. apply digits2_unique; lia. }
    replace (fexp 24 128 (Zpos (digits2_pos p) + e) - e) with 0; [reflexivity|]. clearbody e. unfold fexp, emin. lia.
Qed.

Lemma closest M E e q B Y f m : 0 < M -> E <= e -> B <= E -> B <= f -> nearest_int M (e - E) q -> (f < e -> 2 ^ 23 * 2 ^ (e - E) <= M) ->
  0 <= m < 2 ^ 24 -> Z.abs Y = m * 2 ^ (f - B) ->
  Z.abs (M * 2 ^ (E - B) - q * 2 ^ (e - B)) <= Z.abs (M * 2 ^ (E - B) - Y) /\
  (Z.abs (M * 2 ^ (E - B) - q * 2 ^ (e - B)) = Z.abs (M * 2 ^ (E - B) - Y) -> Y = q * 2 ^ (e - B) \/ Z.even q = true).
Proof.
  intros HM HE HB Hf (N1 & N2 & N3) HL Hm HY.
  assert (P1 : 0 < 2 ^ (E - B)) by (apply Z.pow_pos_nonneg; lia). assert (P2 : 0 < 2 ^ (e - E)) by (apply Z.pow_pos_nonneg; lia).
  assert (EG : 2 ^ (e - B) = 2 ^ (e - E) * 2 ^ (E - B)). { rewrite <- Z.pow_add_r by lia. f_equal. lia. }
  assert (N2' : 2 * Z.abs (M * 2 ^ (E - B) - q * 2 ^ (e - B)) <= 2 ^ (e - B)).
  { rewrite EG. replace (M * 2 ^ (E - B) - q * (2 ^ (e - E) * 2 ^ (E - B))) with ((M - q * 2 ^ (e - E)) * 2 ^ (E - B)) by ring. rewrite Z.abs_mul, (Z.abs_eq (2 ^ (E - B))) by lia. nia. }
  assert (N3' : 2 * Z.abs (M * 2 ^ (E - B) - q * 2 ^ (e - B)) = 2 ^ (e - B) -> Z.even q = true).
  { intros X. apply N3. rewrite EG in X. replace (M * 2 ^ (E - B) - q * (2 ^ (e - E) * 2 ^ (E - B))) with ((M - q * 2 ^ (e - E)) * 2 ^ (E - B)) in X by ring.
    rewrite Z.abs_mul, (Z.abs_eq (2 ^ (E - B))) in X by lia. apply (Z.mul_reg_r _ _ (2 ^ (E - B))); lia. }
  assert (HL' : f < e -> 2 ^ 23 * 2 ^ (e - B) <= M * 2 ^ (E - B)). { intros X. rewrite EG, Z.mul_assoc. apply Z.mul_le_mono_nonneg_r; [lia|auto]. }
  assert (PG : 0 < 2 ^ (e - B)) by (apply Z.pow_pos_nonneg; lia).
  set (X := M * 2 ^ (E - B)) in *. set (G := 2 ^ (e - B)) in *.
  assert (K : forall t, Z.abs (X - q * G) <= Z.abs (X - t * G) /\ (Z.abs (X - q * G) = Z.abs (X - t * G) -> t = q \/ Z.even q = true)).
  { intros t. clear - PG N2' N3'. clearbody X G. destruct (Z.eq_dec t q) as [->|NE]; [split; auto; lia|].
    assert (A : G <= Z.abs (t * G - q * G)). { replace (t * G - q * G) with ((t - q) * G) by ring. rewrite Z.abs_mul, (Z.abs_eq G) by lia. nia. }
    split; [lia|]. intros EQ. right. apply N3'. lia. }
  destruct (Z_lt_ge_dec f e) as [F|F].
  - specialize (HL' F). assert (S1 : m * 2 ^ (f - B) < 2 ^ 23 * G).
    { assert (P3 : 0 < 2 ^ (f - B)) by (apply Z.pow_pos_nonneg; lia).
      assert (Z1 : 2 * 2 ^ (f - B) <= G). { replace (2 * 2 ^ (f - B)) with (2 ^ (1 + (f - B))) by (rewrite Z.pow_add_r by lia; reflexivity). apply Z.pow_le_mono_r; lia. }
      change (2 ^ 24) with 16777216 in Hm. change (2 ^ 23) with 8388608. nia. }
    destruct (K (2 ^ 23)) as [K1 _]. split; [lia|]. intros EQ. exfalso. lia.
  - assert (T : exists t, Y = t * G).
    { exists (Z.sgn Y * m * 2 ^ (f - e)). rewrite <- (Z.abs_sgn Y) at 1. unfold G. rewrite <- Z.mul_assoc, <- Z.pow_add_r by lia. replace (f - e + (e - B)) with (f - B) by lia.
      rewrite (Z.mul_comm (Z.abs Y)), HY. ring. }
    destruct T as (t & ->). destruct (K t) as [K1 K2]. split; auto. intros EQ. destruct (K2 EQ); [left; congruence|auto].
Qed.

(** ** Rational numbers *)
Lemma in_units a e B : B <= e -> (inject_Z a * Qpower 2 e == inject_Z (a * 2 ^ (e - B)) * Qpower 2 B)%Q.
Proof.
  intros H. rewrite inject_Z_mult, (Zpower_Qpower 2 (e - B)) by lia. change (inject_Z 2) with 2%Q.
  rewrite <- Qmult_assoc, <- Qpower_plus by discriminate. replace (e - B + B) with e by lia. reflexivity.
Qed.
Lemma unit_pos B : (0 < Qpower 2 B)%Q.
Proof. apply Qpower_0_lt. reflexivity. Qed.
Lemma units_abs a b B : (Qabs (inject_Z a * Qpower 2 B - inject_Z b * Qpower 2 B) == inject_Z (Z.abs (a - b)) * Qpower 2 B)%Q.
Proof.
  transitivity (Qabs (inject_Z (a - b) * Qpower 2 B)).
  - apply Qabs_wd. unfold Z.sub. rewrite inject_Z_plus, inject_Z_opp. ring.
  - rewrite Qabs_Qmult. rewrite (Qabs_pos (Qpower 2 B)) by (apply Qlt_le_weak, unit_pos). reflexivity.
Qed.
Lemma units_le a b B : (inject_Z a * Qpower 2 B <= inject_Z b * Qpower 2 B)%Q <-> a <= b.
Proof. rewrite Qmult_le_r by apply unit_pos. rewrite Zle_Qle. reflexivity. Qed.
Lemma units_lt a b B : (inject_Z a * Qpower 2 B < inject_Z b * Qpower 2 B)%Q <-> a < b.
Proof. rewrite Qmult_lt_r by apply unit_pos. rewrite Zlt_Qlt. reflexivity. Qed.
Lemma units_eq a b B : (inject_Z a * Qpower 2 B == inject_Z b * Qpower 2 B)%Q <-> a = b.
Proof.
  split; [|intros ->; reflexivity]. intros H. apply Qmult_inj_r in H; [|intros X; pose proof (unit_pos B) as Y; rewrite X in Y; discriminate].
  unfold Qeq in H. cbn in H. lia.
Qed.
Lemma compare_units x y z a b c B : (x == inject_Z a * Qpower 2 B)%Q -> (y == inject_Z b * Qpower 2 B)%Q -> (z == inject_Z c * Qpower 2 B)%Q ->
  ((Qabs (x - y) <= Qabs (x - z))%Q <-> Z.abs (a - b) <= Z.abs (a - c)) /\ ((Qabs (x - y) == Qabs (x - z))%Q <-> Z.abs (a - b) = Z.abs (a - c)).
Proof.
  intros H1 H2 H3. pose proof (units_abs a b B) as U1. pose proof (units_abs a c B) as U2. rewrite <- H1, <- H2 in U1. rewrite <- H1, <- H3 in U2.
  rewrite U1, U2. split; [apply units_le|apply units_eq].
Qed.
Lemma f32_in_units (y : F f32) q : is_f32 y -> f32_value y = Some q -> exists b f, -149 <= f <= 104 /\ Z.abs b < 2 ^ 24 /\ (q == inject_Z b * Qpower 2 f)%Q.
Proof.
  destruct y as [s|s| |s m e]; cbn [is_f32 f32_value]; intros H E; try discriminate.
  - injection E as <-. exists 0, 0. repeat split; try lia; reflexivity.
  - assert (X : Qred (inject_Z (if s then Zneg m else Zpos m) * Qpower 2 e) = q) by congruence. rewrite <- X. exists (if s then Zneg m else Zpos m), e. split; [lia|]. split; [destruct s; lia|]. apply Qred_correct.
Qed.
Lemma value_red (y : F f32) q : f32_value y = Some q -> Qred q = q.
Proof.
  destruct y as [s|s| |s m e]; cbn [f32_value]; intros E; try discriminate; [injection E as <-; reflexivity|].
  assert (X : Qred (inject_Z (if s then Zneg m else Zpos m) * Qpower 2 e) = q) by congruence. rewrite <- X. apply Qred_complete, Qred_correct.
Qed.

(** [sM * 2 ^ E] is rounded correctly. *)
Definition signed (s : bool) (z : Z) : Z := if s then - z else z.
Lemma signed_abs s a b : Z.abs (signed s a - b) = Z.abs (a - signed s b).
Proof. destruct s; cbn [signed]; lia. Qed.
Lemma signed_mul s a b : signed s a * b = signed s (a * b).
Proof. destruct s; cbn [signed]; lia. Qed.
Lemma aux_rounds s M E : E <= fexp 24 128 (Zpos (digits2_pos M) + E) ->
  rounds_to (inject_Z (signed s (Zpos M)) * Qpower 2 E) (binary_round_aux 24 128 s (Zpos M) E loc_Exact).
Proof.
  intros HE. destruct (round_aux_is s M E HE) as (q & N & Hq & He & HL & HU & R). set (e := fexp 24 128 (Zpos (digits2_pos M) + E)) in *.
  assert (Ee : -149 <= e) by (unfold e, fexp, emin; lia). clearbody e. set (r := binary_round_aux 24 128 s (Zpos M) E loc_Exact) in *. clearbody r.
  set (B := Z.min E (-149)).
  assert (P1 : 0 < 2 ^ (E - B)) by (apply Z.pow_pos_nonneg; lia). assert (P2 : 0 < 2 ^ (e - E)) by (apply Z.pow_pos_nonneg; lia).
  assert (EG : 2 ^ (e - B) = 2 ^ (e - E) * 2 ^ (E - B)). { rewrite <- Z.pow_add_r by lia. f_equal. lia. }
  assert (V : (inject_Z (signed s (Zpos M)) * Qpower 2 E == inject_Z (signed s (Zpos M * 2 ^ (E - B))) * Qpower 2 B)%Q). { rewrite (in_units _ _ B), signed_mul by lia. reflexivity. }
  assert (TL : (too_large == inject_Z ((2 ^ 25 - 1) * 2 ^ (103 - B)) * Qpower 2 B)%Q).
  { rewrite <- (in_units (2 ^ 25 - 1) 103 B) by lia. vm_compute. reflexivity. }
  (* when the result is finite *)
  assert (FIN : (exists p f, r = S754_finite s p f /\ Zpos p * 2 ^ (f - B) = q * 2 ^ (e - B) /\ is_f32 r /\ (Z.even q = true -> even_mantissa r)) \/
                (q = 0 /\ r = S754_zero s) \/
                (r = S754_infinity s /\ (105 <= e \/ (e = 104 /\ q = 2 ^ 24)))).
  { destruct N as (N1 & _). destruct q as [|p|p]; [right; left; auto| |lia]. destruct (Z.eqb_spec (Zpos p) (2 ^ 24)) as [Q|Q].
    - destruct (Z.leb_spec (e + 1) 104).
      + left. exists 8388608%positive, (e + 1). split; auto. rewrite Q, R. split; [|split; [cbn; lia|intros _; reflexivity]].
        replace (e + 1 - B) with (e - B + 1) by lia. rewrite Z.pow_add_r by lia. lia.
      + right. right. split; auto. lia.
    - destruct (Z.leb_spec e 104).
      + left. exists p, e. split; auto. split; auto. rewrite R. split; [|auto]. cbn [is_f32]. split; [lia|]. split; [lia|].
        destruct (Z_lt_ge_dec (Zpos p) (2 ^ 23)); [right; auto|left; lia].
      + right. right. split; auto. lia. }
  (* large values *)
  assert (BIG : 105 <= e \/ (e = 104 /\ q = 2 ^ 24) -> (2 ^ 25 - 1) * 2 ^ (103 - B) <= Zpos M * 2 ^ (E - B)).
  { intros [H|[-> ->]].
    - specialize (HL ltac:(lia)). assert (X : 2 ^ 23 * 2 ^ (e - B) <= Zpos M * 2 ^ (E - B)). { rewrite EG, Z.mul_assoc. apply Z.mul_le_mono_nonneg_r; lia. }
      assert (Y : 2 ^ (105 - B) <= 2 ^ (e - B)) by (apply Z.pow_le_mono_r; lia). replace (105 - B) with (2 + (103 - B)) in Y by lia. rewrite Z.pow_add_r in Y by lia.
      assert (0 < 2 ^ (103 - B)) by (apply Z.pow_pos_nonneg; lia). nia.
    - destruct N as (_ & N2 & _). replace (104 - B) with (1 + (103 - B)) in EG by lia. rewrite Z.pow_add_r in EG by lia.
      set (G := 2 ^ (103 - B)) in *. set (K := 2 ^ (104 - E)) in *. set (U := 2 ^ (E - B)) in *. clearbody G K U. nia. }
  assert (SMALL : (2 ^ 25 - 1) * 2 ^ (103 - B) <= Zpos M * 2 ^ (E - B) -> 105 <= e \/ (e = 104 /\ q = 2 ^ 24)).
  { intros H. destruct (Z_le_gt_dec 105 e) as [|L]; [left; auto|right].
    assert (X : Zpos M * 2 ^ (E - B) < 2 ^ 24 * 2 ^ (e - B)). { rewrite EG, Z.mul_assoc. apply Z.mul_lt_mono_pos_r; lia. }
    destruct (Z.eq_dec e 104) as [->|NE].
    - split; auto. destruct N as (_ & N2 & N3). replace (104 - B) with (1 + (103 - B)) in EG by lia. rewrite Z.pow_add_r in EG by lia. clear X V TL.
      set (G := 2 ^ (103 - B)) in *. set (K := 2 ^ (104 - E)) in *. set (U := 2 ^ (E - B)) in *. clearbody G K U.
      destruct (Z.eq_dec q (2 ^ 24)) as [|NQ]; auto. exfalso.
      assert (Z1 : (2 ^ 25 - 1) * K <= 2 * Zpos M). { apply (Z.mul_le_mono_pos_r _ _ U); auto. nia. }
      destruct (Z.eq_dec q (2 ^ 24 - 1)) as [->|NQ'].
      + assert (Z2 : Z.even (2 ^ 24 - 1) = true) by (apply N3; lia). vm_compute in Z2. discriminate.
      + assert (q <= 2 ^ 24 - 2) by lia. change (2 ^ 24) with 16777216 in *. change (2 ^ 25) with 33554432 in *. nia.
    - exfalso. assert (Y : 2 ^ (e - B) <= 2 ^ (103 - B)) by (apply Z.pow_le_mono_r; lia). assert (0 < 2 ^ (103 - B)) by (apply Z.pow_pos_nonneg; lia). nia. }
  assert (INF : 105 <= e \/ (e = 104 /\ q = 2 ^ 24) -> r = S754_infinity s).
  { intros H. rewrite R. destruct N as (N1 & _). destruct q as [|p|p]; try lia. destruct (Z.eqb_spec (Zpos p) (2 ^ 24)); [destruct (Z.leb_spec (e + 1) 104)|destruct (Z.leb_spec e 104)]; auto; lia. }
  split; [|split; [|split]].
  - destruct FIN as [(p & f & _ & _ & X & _)|[(_ & ->)|(-> & _)]]; [exact X|exact I..].
  - intros HV. rewrite V, TL in HV. rewrite Qabs_Qmult, (Qabs_pos (Qpower 2 B)) in HV by (apply Qlt_le_weak, unit_pos).
    change (Qabs (inject_Z (signed s (Zpos M * 2 ^ (E - B))))) with (inject_Z (Z.abs (signed s (Zpos M * 2 ^ (E - B))))) in HV.
    apply units_lt in HV. replace (Z.abs (signed s (Zpos M * 2 ^ (E - B)))) with (Zpos M * 2 ^ (E - B)) in HV by (destruct s; cbn [signed]; lia).
    assert (RV : exists v, f32_value r = Some v /\ (v == inject_Z (signed s (q * 2 ^ (e - B))) * Qpower 2 B)%Q /\ (Z.even q = true -> even_mantissa r)).
    { destruct FIN as [(p & f & -> & X & I & EV)|[(-> & ->)|(-> & X)]].
      - eexists. split; [reflexivity|]. split; auto. rewrite Qred_correct. cbn [is_f32] in I. rewrite (in_units _ f B) by lia. rewrite <- X.
        replace (if s then Z.neg p else Z.pos p) with (signed s (Zpos p)) by (destruct s; reflexivity). rewrite signed_mul. reflexivity.
      - exists 0%Q. split; auto. split; [|intros; exact I]. destruct s; reflexivity.
      - exfalso. apply BIG in X. lia. }
    destruct RV as (v & E1 & E2 & E3). exists v. split; auto. intros y q' Iy Vy. destruct (f32_in_units y q' Iy Vy) as (b & f & Hf & Hb & Eb).
    rewrite (in_units b f B) in Eb by lia.
    destruct (closest (Zpos M) E e q B (signed s (b * 2 ^ (f - B))) f (Z.abs b)) as [C1 C2]; auto; try lia.
    { assert (0 < 2 ^ (f - B)) by (apply Z.pow_pos_nonneg; lia). destruct s; cbn [signed]; rewrite ?Z.abs_opp, Z.abs_mul; lia. }
    destruct (compare_units _ _ _ _ _ _ B V E2 Eb) as [D1 D2]. rewrite D1, D2. clear D1 D2 V TL HV. rewrite (signed_abs s (Zpos M * 2 ^ (E - B)) (signed s (q * 2 ^ (e - B)))), (signed_abs s (Zpos M * 2 ^ (E - B)) (b * 2 ^ (f - B))).
    replace (signed s (signed s (q * 2 ^ (e - B)))) with (q * 2 ^ (e - B)) by (destruct s; cbn [signed]; lia).
    split; auto. intros X. destruct (C2 X) as [C3|C3]; [left|right; auto].
    assert (Q1 : (q' == v)%Q). { rewrite Eb, E2. apply units_eq. rewrite <- C3. destruct s; cbn [signed]; lia. }
    rewrite <- (value_red y q' Vy), <- (value_red r v E1). apply Qred_complete. exact Q1.
  - intros HV. rewrite V, TL in HV. apply units_le in HV. assert (0 < 2 ^ (103 - B)) by (apply Z.pow_pos_nonneg; lia). destruct s; cbn [signed] in HV; [exfalso; nia|].
    apply INF, SMALL, HV.
  - intros HV. assert (TL' : (- too_large == inject_Z (- ((2 ^ 25 - 1) * 2 ^ (103 - B))) * Qpower 2 B)%Q) by (rewrite TL, inject_Z_opp; ring).
    rewrite V, TL' in HV. apply units_le in HV. assert (0 < 2 ^ (103 - B)) by (apply Z.pow_pos_nonneg; lia).
    destruct s; cbn [signed] in HV; [|exfalso; nia]. apply INF, SMALL. lia.
Qed.

Lemma rounds_wd v v' r : (v == v')%Q -> rounds_to v r -> rounds_to v' r.
Proof.
  intros E (H1 & H2 & H3 & H4). split; [auto|]. split; [|rewrite <- E; auto]. intros HV. rewrite <- E in HV. destruct (H2 HV) as (q & Q1 & Q2). exists q. split; auto.
  intros y q' I Y. destruct (Q2 y q' I Y) as [A1 A2]. rewrite <- E. auto.
Qed.
Lemma f32_small (y : F f32) q : is_f32 y -> f32_value y = Some q -> (q < too_large)%Q /\ (- too_large < q)%Q.
Proof.
  intros H E. destruct (f32_in_units y q H E) as (b & f & Hf & Hb & Eb). rewrite (in_units b f (-149)) in Eb by lia. rewrite Eb.
  assert (TL : (too_large == inject_Z ((2 ^ 25 - 1) * 2 ^ 252) * Qpower 2 (-149))%Q) by (vm_compute; reflexivity).
  assert (TL' : (- too_large == inject_Z (- ((2 ^ 25 - 1) * 2 ^ 252)) * Qpower 2 (-149))%Q) by (vm_compute; reflexivity).
  rewrite TL', TL, !units_lt. replace (f - -149) with (f + 149) by lia.
  assert (P : 0 < 2 ^ (f + 149) <= 2 ^ 253). { split; [apply Z.pow_pos_nonneg; lia|apply Z.pow_le_mono_r; lia]. }
  change (2 ^ 253) with (2 * 2 ^ 252) in P. assert (PP : 0 < 2 ^ 252) by reflexivity. set (K := 2 ^ (f + 149)) in *. set (L := 2 ^ 252) in *. clearbody K L.
  change (2 ^ 24) with 16777216 in *. change (2 ^ 25) with 33554432. split; nia.
Qed.
Lemma exact_rounds v (r : F f32) q : is_f32 r -> f32_value r = Some q -> (v == q)%Q -> rounds_to v r.
Proof.
  intros I E V. apply (rounds_wd q); [symmetry; auto|]. destruct (f32_small r q I E) as [S1 S2]. split; auto. split; [|split; intros X; exfalso].
  - intros _. exists q. split; auto. intros y q' Iy Ey. assert (Z0 : (Qabs (q - q) == 0)%Q) by (setoid_replace (q - q)%Q with 0%Q by ring; reflexivity).
    rewrite Z0. split; [apply Qabs_nonneg|]. intros X. left. symmetry in X. rewrite <- (value_red y q' Ey), <- (value_red r q E). apply Qred_complete.
    destruct (Qlt_le_dec (q - q') 0) as [L|L].
    + rewrite Qabs_neg in X by (apply Qlt_le_weak; auto). setoid_replace q' with (q - (q - q'))%Q by ring. setoid_replace (q - q')%Q with (- (- (q - q')))%Q by ring. rewrite X. ring.
    + rewrite Qabs_pos in X by auto. setoid_replace q' with (q - (q - q'))%Q by ring. rewrite X. ring.
  - apply (Qlt_not_le _ _ S1 X).
  - apply (Qlt_not_le _ _ S2 X).
Qed.
Lemma round_rounds s M E : rounds_to (inject_Z (signed s (Zpos M)) * Qpower 2 E) (binary_round 24 128 s M E).
Proof.
  unfold binary_round, shl_align. set (d := Zpos (digits2_pos M)). destruct (fexp 24 128 (d + E) - E) as [|k|k] eqn:K.
  - apply aux_rounds. fold d. lia.
  - apply aux_rounds. fold d. lia.
  - assert (EE : fexp 24 128 (d + E) = E + Zneg k) by lia.
    assert (D : Zpos (digits2_pos (shift_pos k M)) = d + Zpos k).
    { destruct (digits2_range M) as [L U]. fold d in L, U. apply digits2_unique; [lia|]. rewrite shift_pos_mul. replace (d + Zpos k - 1) with (d - 1 + Zpos k) by lia.
      assert (0 < 2 ^ Zpos k) by (apply Z.pow_pos_nonneg; lia). rewrite !Z.pow_add_r by lia. nia. }
    rewrite EE. eapply rounds_wd; [|apply aux_rounds].
    + rewrite (in_units (signed s (Zpos M)) E (E + Zneg k)) by lia. rewrite signed_mul, shift_pos_mul. replace (E - (E + Zneg k)) with (Zpos k) by lia. reflexivity.
    + rewrite D. replace (d + Zpos k + (E + Zneg k)) with (d + E) by lia. lia.
Qed.
Lemma normalize_rounds S E b : rounds_to (inject_Z S * Qpower 2 E) (binary_normalize 24 128 S E b).
Proof.
  destruct S as [|M|M]; cbn [binary_normalize].
  - apply (exact_rounds _ _ 0%Q); [exact I|reflexivity|]. ring.
  - apply (round_rounds false).
  - apply (round_rounds true).
Qed.
Lemma add_rounds (x y : F f32) a b : is_f32 x -> is_f32 y -> f32_value x = Some a -> f32_value y = Some b -> rounds_to (a + b) (SFadd 24 128 x y).
Proof.
  destruct x as [s|s| |s m e], y as [s'|s'| |s' m' e']; intros I1 I2 V1 V2; try discriminate V1; try discriminate V2.
  - injection V1 as <-. injection V2 as <-. apply (exact_rounds _ _ 0%Q); [destruct s, s'; exact I|destruct s, s'; reflexivity|ring].
  - injection V1 as <-. cbn [SFadd]. apply (exact_rounds _ _ b); auto. ring.
  - injection V2 as <-. cbn [SFadd]. apply (exact_rounds _ _ a); auto. ring.
  - cbn [SFadd]. set (ez := Z.min e e'). eapply rounds_wd; [|apply normalize_rounds]. rewrite !shl_align_fst by lia.
    assert (Ea : (a == inject_Z (signed s (Zpos m * 2 ^ (e - ez))) * Qpower 2 ez)%Q).
    { cbn [f32_value] in V1. assert (X : Qred (inject_Z (if s then Zneg m else Zpos m) * Qpower 2 e) = a) by congruence. rewrite <- X, Qred_correct.
      rewrite (in_units _ e ez) by lia. rewrite <- signed_mul. destruct s; reflexivity. }
    assert (Eb : (b == inject_Z (signed s' (Zpos m' * 2 ^ (e' - ez))) * Qpower 2 ez)%Q).
    { cbn [f32_value] in V2. assert (X : Qred (inject_Z (if s' then Zneg m' else Zpos m') * Qpower 2 e') = b) by congruence. rewrite <- X, Qred_correct.
      rewrite (in_units _ e' ez) by lia. rewrite <- signed_mul. destruct s'; reflexivity. }
    rewrite Ea, Eb, <- Qmult_plus_distr_l, <- inject_Z_plus. destruct s, s'; reflexivity.
Qed.
Lemma opp_f32 (y : F f32) b : is_f32 y -> f32_value y = Some b -> is_f32 (SFopp y) /\ exists b', f32_value (SFopp y) = Some b' /\ (b' == - b)%Q.
Proof.
  destruct y as [s|s| |s m e]; intros I V; try discriminate V; split; auto; cbn [SFopp f32_value].
  - injection V as <-. exists 0%Q. split; auto. reflexivity.
  - eexists. split; [reflexivity|]. cbn [f32_value] in V. assert (X : Qred (inject_Z (if s then Zneg m else Zpos m) * Qpower 2 e) = b) by congruence.
    rewrite <- X, !Qred_correct. destruct s; cbn [negb]; [change (Zneg m) with (- Zpos m)|change (Zneg m) with (- Zpos m)]; rewrite inject_Z_opp; ring.
Qed.
Lemma sub_rounds (x y : F f32) a b : is_f32 x -> is_f32 y -> f32_value x = Some a -> f32_value y = Some b -> rounds_to (a - b) (SFsub 24 128 x y).
Proof.
  intros I1 I2 V1 V2. rewrite sub_add32. destruct (opp_f32 y b I2 V2) as (I3 & b' & V3 & E). apply (rounds_wd (a + b')%Q); [rewrite E; ring|]. apply add_rounds; auto.
Qed.
Lemma mul_rounds (x y : F f32) a b : is_f32 x -> is_f32 y -> f32_value x = Some a -> f32_value y = Some b -> rounds_to (a * b) (SFmul 24 128 x y).
Proof.
  destruct x as [s|s| |s m e], y as [s'|s'| |s' m' e']; intros I1 I2 V1 V2; try discriminate V1; try discriminate V2.
  - injection V1 as <-. injection V2 as <-. apply (exact_rounds _ _ 0%Q); [exact I|reflexivity|ring].
  - injection V1 as <-. apply (exact_rounds _ _ 0%Q); [exact I|reflexivity|ring].
  - injection V2 as <-. apply (exact_rounds _ _ 0%Q); [exact I|reflexivity|ring].
  - cbn [SFmul]. cbn [f32_value] in V1, V2.
    assert (X1 : Qred (inject_Z (if s then Zneg m else Zpos m) * Qpower 2 e) = a) by congruence. assert (X2 : Qred (inject_Z (if s' then Zneg m' else Zpos m') * Qpower 2 e') = b) by congruence.
    eapply rounds_wd; [|apply aux_rounds].
    + rewrite <- X1, <- X2, !Qred_correct, Qpower_plus by discriminate. rewrite Pos2Z.inj_mul.
      replace (signed (xorb s s') (Zpos m * Zpos m')) with ((if s then Zneg m else Zpos m) * (if s' then Zneg m' else Zpos m')) by (destruct s, s'; cbn [signed xorb]; lia).
      rewrite inject_Z_mult. ring.
    + destruct I1 as (_ & I1 & C1), I2 as (_ & I2 & C2). destruct (digits2_range (m * m')) as [L U]. rewrite Pos2Z.inj_mul in L, U.
      set (d := Zpos (digits2_pos (m * m'))) in *. assert (D : 24 <= d \/ e + e' <= -149).
      { destruct C1 as [C1| ->]; [|destruct C2 as [C2| ->]; [|right; lia]]; left; (assert (23 < d); [|lia]); apply (Z.pow_lt_mono_r_iff 2); try lia; nia. }
      unfold fexp, emin. lia.
Qed.
Lemma narrow_rounds (x : D f64) a : f64_value x = Some a -> rounds_to a (to_f32 x).
Proof.
  destruct x as [s|s| |s m e]; intros V; try discriminate V.
  - injection V as <-. apply (exact_rounds _ _ 0%Q); [exact I|reflexivity|reflexivity].
  - cbn [f64_value] in V. assert (X : Qred (inject_Z (if s then Zneg m else Zpos m) * Qpower 2 e) = a) by congruence. rewrite <- X.
    eapply rounds_wd; [|apply normalize_rounds]. rewrite Qred_correct. reflexivity.
Qed.
