(** * ByteProofs: encoding, decoding, and cutting of characters *)
From Coq Require Import Ascii String List ZArith NArith Arith Bool Lia.
From Verif Require Import Base Spec DfaModel NfaModel ValidateModel TableSpec TableModel ApiModel Messages MessageSpec WasmModel WasmSpec CliModel CliSpec CliProofs
  FileModel FileSpec FileProofs ShareModel ShareSpec ShareProofs WriteModel WriteSpec WriteProofs ArgsModel ArgsSpec ProcessModel ProcessSpec ProcessProofs
  ByteModel ByteSpec.
Import ListNotations.
Close Scope string_scope.
Open Scope list_scope.

(** ** UTF-8 *)
Lemma digits64 x y : (y < 64)%N -> ((64 * x + y) / 64 = x /\ (64 * x + y) mod 64 = y)%N.
Proof. intros H. split; symmetry; [eapply N.div_unique|eapply N.mod_unique]; eauto. Qed.
Lemma by_64 c : exists x y, (c = 64 * x + y /\ y < 64)%N.
Proof. exists (c / 64)%N, (c mod 64)%N. split; [apply N.div_mod'|apply N.mod_lt; discriminate]. Qed.
Lemma div_4096 c : (c / 4096 = c / 64 / 64)%N.
Proof. rewrite N.div_div by discriminate. auto. Qed.
Lemma div_262144 c : (c / 262144 = c / 64 / 64 / 64)%N.
Proof. rewrite !N.div_div by discriminate. auto. Qed.
Lemma encode_1 c : (c < 128)%N -> encode_char c = [c].
Proof. intros H. unfold encode_char. rewrite (proj2 (N.ltb_lt _ _) H). auto. Qed.
Lemma encode_2 x y : (2 <= x < 32 -> y < 64 -> encode_char (64 * x + y) = [192 + x; 128 + y])%N.
Proof.
  intros X Y. destruct (digits64 x y Y) as [D M]. unfold encode_char. rewrite D, M.
  rewrite (proj2 (N.ltb_ge _ 128)), (proj2 (N.ltb_lt _ 2048)) by lia. auto.
Qed.
Lemma encode_3 x y z : (x < 16 -> y < 64 -> z < 64 -> 2048 <= 64 * (64 * x + y) + z -> encode_char (64 * (64 * x + y) + z) = [224 + x; 128 + y; 128 + z])%N.
Proof.
  intros X Y Z G. destruct (digits64 (64 * x + y) z Z) as [D M]. destruct (digits64 x y Y) as [D' M'].
  unfold encode_char. rewrite div_4096, !D, M, D', M'.
  rewrite (proj2 (N.ltb_ge _ 128)), (proj2 (N.ltb_ge _ 2048)), (proj2 (N.ltb_lt _ 65536)) by lia. auto.
Qed.
Lemma encode_4 w x y z : (x < 64 -> y < 64 -> z < 64 -> 65536 <= 64 * (64 * (64 * w + x) + y) + z ->
  encode_char (64 * (64 * (64 * w + x) + y) + z) = [240 + w; 128 + x; 128 + y; 128 + z])%N.
Proof.
  intros X Y Z G. destruct (digits64 (64 * (64 * w + x) + y) z Z) as [D M]. destruct (digits64 (64 * w + x) y Y) as [D' M'].
  destruct (digits64 w x X) as [D'' M''].
  unfold encode_char. rewrite div_4096, div_262144, !D, M, !D', M', D'', M''.
  rewrite (proj2 (N.ltb_ge _ 128)), (proj2 (N.ltb_ge _ 2048)), (proj2 (N.ltb_ge _ 65536)) by lia. auto.
Qed.
Lemma char_code_is c bs : utf8_char c bs -> bs = encode_char c.
Proof. intros [d H|x y X Y|x y z X Y Z G|w x y z X Y Z G]; symmetry; auto using encode_1, encode_2, encode_3, encode_4. Qed.
Lemma char_code c : utf8_char c (encode_char c).
Proof.
  assert (H : exists bs, utf8_char c bs).
  { destruct (N.lt_ge_cases c 128) as [|G1]; [eexists; apply utf8_1; auto|].
    destruct (by_64 c) as (a & z & -> & Z). destruct (N.lt_ge_cases (64 * a + z) 2048) as [|G2]; [eexists; apply utf8_2; lia|].
    destruct (by_64 a) as (b & y & -> & Y). destruct (N.lt_ge_cases (64 * (64 * b + y) + z) 65536) as [|G3]; [eexists; apply utf8_3; lia|].
    destruct (by_64 b) as (w & x & -> & X). eexists. apply utf8_4; auto. }
  destruct H as [bs H]. rewrite <- (char_code_is _ _ H). auto.
Qed.
Lemma text_code s : utf8 s (encode s).
Proof. induction s; cbn [encode flat_map]; constructor; auto using char_code. Qed.
Lemma text_code_is s l : utf8 s l -> l = encode s.
Proof. induction 1; auto. cbn [encode flat_map]. rewrite (char_code_is _ _ H). unfold encode in IHutf8. congruence. Qed.

Lemma encode_app a b : encode (a ++ b) = encode a ++ encode b.
Proof. apply flat_map_app. Qed.
Lemma encode_char_some c : exists b l, encode_char c = b :: l.
Proof. destruct (char_code c); eauto. Qed.
Lemma encode_nil s : encode s = [] -> s = [].
Proof. destruct s as [|c s]; auto. cbn [encode flat_map]. destruct (encode_char_some c) as (b & l & ->). discriminate. Qed.

Lemma is_continuation y : (y < 64)%N -> continuation (128 + y) = true.
Proof. intros H. unfold continuation. rewrite (proj2 (N.leb_le _ _)), (proj2 (N.ltb_lt _ _)) by lia. auto. Qed.
Ltac test := repeat first
  [ rewrite is_continuation by lia
  | rewrite (proj2 (N.ltb_lt _ _)) by lia | rewrite (proj2 (N.ltb_ge _ _)) by lia
  | rewrite (proj2 (N.leb_le _ _)) by lia | rewrite (proj2 (N.leb_gt _ _)) by lia ]; cbn [andb negb].
Lemma decode_encode c bs r : utf8_char c bs -> scalar c -> decode_char (bs ++ r) = Some (c, r).
Proof.
  unfold scalar. intros [d H|x y X Y|x y z X Y Z G|w x y z X Y Z G] S; cbn [app]; unfold decode_char; cbv zeta.
  - test. auto.
  - test. replace ((192 + x - 192) * 64 + (128 + y - 128))%N with (64 * x + y)%N by lia. test. auto.
  - test. replace ((224 + x - 224) * 4096 + (128 + y - 128) * 64 + (128 + z - 128))%N with (64 * (64 * x + y) + z)%N by lia.
    test. destruct S as [S|S]; test; auto.
  - test. replace ((240 + w - 240) * 262144 + (128 + x - 128) * 4096 + (128 + y - 128) * 64 + (128 + z - 128))%N with (64 * (64 * (64 * w + x) + y) + z)%N by lia.
    test. auto.
Qed.
Lemma continued x : continuation x = true -> exists y, (x = 128 + y /\ y < 64)%N.
Proof.
  unfold continuation. intros H. apply andb_true_iff in H as [A B]. apply N.leb_le in A. apply N.ltb_lt in B. exists (x - 128)%N. lia.
Qed.
Lemma lead k n x : ((k <=? x) && (x <? k + n))%N = true -> exists y, (x = k + y /\ y < n)%N.
Proof. intros H. apply andb_true_iff in H as [A B]. apply N.leb_le in A. apply N.ltb_lt in B. exists (x - k)%N. lia. Qed.
Lemma some_pair (a c : N) (b r : list N) : Some (a, b) = Some (c, r) -> c = a /\ r = b.
Proof. intros E. injection E as -> ->. auto. Qed.
Lemma decode_sound l c r : decode_char l = Some (c, r) -> scalar c /\ l = encode_char c ++ r.
Proof.
  assert (W : forall bs, utf8_char c bs -> scalar c -> l = bs ++ r -> scalar c /\ l = encode_char c ++ r).
  { intros bs H S ->. rewrite (char_code_is _ _ H). auto. }
  unfold decode_char. cbv zeta. destruct l as [|b l1]; [discriminate|]. destruct (N.ltb_spec b 128) as [B|B].
  { intros E; apply some_pair in E as [-> ->]. eapply W; [apply utf8_1; auto|left; lia|reflexivity]. }
  destruct l1 as [|x l2]; [discriminate|]. destruct (continuation x) eqn:X; cbn [negb]; [|discriminate]. apply continued in X as (x' & -> & X).
  destruct ((192 <=? b) && (b <? 224))%N eqn:L2.
  { apply (lead 192 32) in L2 as (a & -> & A). replace ((192 + a - 192) * 64 + (128 + x' - 128))%N with (64 * a + x')%N by lia.
    destruct (N.leb_spec 128 (64 * a + x')); [|discriminate]. intros E; apply some_pair in E as [-> ->]. eapply W; [apply utf8_2; lia|left; lia|reflexivity]. }
  clear L2. destruct l2 as [|y l3]; [discriminate|]. destruct (continuation y) eqn:Y; cbn [negb]; [|discriminate]. apply continued in Y as (y' & -> & Y).
  destruct ((224 <=? b) && (b <? 240))%N eqn:L3.
  { apply (lead 224 16) in L3 as (a & -> & A).
    replace ((224 + a - 224) * 4096 + (128 + x' - 128) * 64 + (128 + y' - 128))%N with (64 * (64 * a + x') + y')%N by lia.
    destruct (N.leb_spec 2048 (64 * (64 * a + x') + y')); [|discriminate]. cbn [andb].
    destruct (N.leb_spec 55296 (64 * (64 * a + x') + y')), (N.ltb_spec (64 * (64 * a + x') + y') 57344); cbn [andb negb]; try discriminate;
      (intros E; apply some_pair in E as [-> ->]; eapply W; [apply utf8_3; auto|unfold scalar; lia|reflexivity]). }
  clear L3. destruct l3 as [|z l4]; [discriminate|]. destruct (continuation z) eqn:Z; cbn [negb]; [|discriminate]. apply continued in Z as (z' & -> & Z).
  destruct ((240 <=? b) && (b <? 248))%N eqn:L4; [|discriminate].
  apply (lead 240 8) in L4 as (a & -> & A).
  replace ((240 + a - 240) * 262144 + (128 + x' - 128) * 4096 + (128 + y' - 128) * 64 + (128 + z' - 128))%N with (64 * (64 * (64 * a + x') + y') + z')%N by lia.
  destruct (N.leb_spec 65536 (64 * (64 * (64 * a + x') + y') + z')); [|discriminate]. cbn [andb].
  destruct (N.ltb_spec (64 * (64 * (64 * a + x') + y') + z') 1114112); [|discriminate].
  intros E; apply some_pair in E as [-> ->]. eapply W; [apply utf8_4; auto|right; lia|reflexivity].
Qed.
Lemma decode_char_code c r : scalar c -> decode_char (encode_char c ++ r) = Some (c, r).
Proof. apply decode_encode, char_code. Qed.

Lemma decode_upto_code s : rust_text s -> forall n, length (encode s) <= n -> decode_upto n (encode s) = Some s.
Proof.
  induction 1 as [|c s C S IH]; intros n L; [destruct n; auto|]. cbn [encode flat_map] in *. fold (encode s) in *.
  pose proof (decode_char_code c (encode s) C) as D. destruct (encode_char_some c) as (b & l & E). rewrite E in *. cbn [app length] in *.
  destruct n as [|n]; [lia|]. cbn [decode_upto]. rewrite D, IH; auto. rewrite app_length in L. lia.
Qed.
Lemma decode_upto_sound n : forall l s, decode_upto n l = Some s -> rust_text s /\ l = encode s.
Proof.
  induction n as [|n IH]; intros [|b l] s; cbn [decode_upto]; try discriminate; try (intros [= <-]; split; [constructor|auto]).
  destruct (decode_char (b :: l)) as [[c r]|] eqn:D; [|discriminate]. destruct (decode_upto n r) as [t|] eqn:T; [|discriminate].
  cbn [option_map]. intros [= <-]. apply decode_sound in D as [C ->]. apply IH in T as [S ->]. split; [constructor; auto|auto].
Qed.
Theorem from_utf8_spec l s : from_utf8 l = Some s <-> rust_text s /\ utf8 s l.
Proof.
  unfold from_utf8. split.
  - intros H. apply decode_upto_sound in H as [S ->]. split; auto using text_code.
  - intros [S H]. apply text_code_is in H as ->. apply decode_upto_code; auto.
Qed.
Theorem utf8_exists s : exists l, utf8 s l.
Proof. eauto using text_code. Qed.
Theorem utf8_bytes s l : rust_text s -> utf8 s l -> Forall (fun b => (b < 256)%N) l.
Proof.
  intros S H. induction H as [|c bs s l C H IH]; [constructor|]. inversion S; subst. apply Forall_app. split; auto.
  unfold scalar in *. destruct C; repeat constructor; lia.
Qed.
Theorem utf8_unique s l l' : utf8 s l -> utf8 s l' -> l = l'.
Proof. intros H H'. apply text_code_is in H, H'. congruence. Qed.
Theorem utf8_prefix t s l l' : rust_text t -> rust_text s -> utf8 t l -> utf8 s l' -> prefix_of l l' -> prefix_of t s.
Proof.
  intros T S Ht Hs [w E]. apply text_code_is in Ht, Hs. subst. revert s S E.
  induction T as [|c t C T IH]; intros s S E; [exists s; auto|].
  destruct s as [|c' s].
  - cbn [encode flat_map] in E. destruct (encode_char_some c) as (b & l & X). rewrite X in E. discriminate E.
  - cbn [encode flat_map] in E. fold (encode s) (encode t) in E. rewrite <- app_assoc in E. inversion S as [|? ? C' S']; subst.
    pose proof (decode_char_code c' (encode s) C') as D. rewrite E, decode_char_code in D by auto. injection D as <- D.
    destruct (IH s) as [v ->]; auto. exists v. auto.
Qed.

(** ** Reading *)
Theorem reads_texts files : finds files (read_to_string files).
Proof.
  intros k p. unfold read_to_string. destruct (files k p) as [l|e]; auto. destruct (from_utf8 l) as [s|] eqn:E.
  - left. apply from_utf8_spec in E as [S H]. eauto.
  - right. split; auto. intros s S H. assert (X : from_utf8 l = Some s) by (apply from_utf8_spec; auto). congruence.
Qed.

(** ** Cutting *)
Fixpoint whole (s : str) (n : nat) : nat :=
  match s with
  | [] => 0
  | c :: r => if n <? length (encode_char c) then 0 else S (whole r (n - length (encode_char c)))
  end.
Lemma firstn_encode s : forall n, exists p, firstn n (encode s) = encode (firstn (whole s n) s) ++ p /\ cut_char p.
Proof.
  induction s as [|c s IH]; intros n; cbn [whole encode flat_map].
  - exists []. rewrite firstn_nil. split; [auto|left; auto].
  - fold (encode s). destruct (Nat.ltb_spec n (length (encode_char c))) as [L|L].
    + exists (firstn n (encode_char c)). cbn [firstn encode flat_map app]. split.
      * rewrite firstn_app. replace (n - length (encode_char c)) with 0 by lia. rewrite app_nil_r. auto.
      * right. exists c, (encode_char c), (skipn n (encode_char c)). split; [apply char_code|]. split; [symmetry; apply firstn_skipn|].
        intros X. apply (f_equal (@length N)) in X. rewrite skipn_length in X. cbn in X. lia.
    + destruct (IH (n - length (encode_char c))) as (p & E & P). exists p. split; auto. cbn [firstn encode flat_map].
      fold (encode (firstn (whole s (n - length (encode_char c))) s)). rewrite firstn_app, E, app_assoc. f_equal. rewrite firstn_all2 by lia. auto.
Qed.
Lemma complete_whole s : forall n, complete n s (firstn (whole s n) s).
Proof.
  induction s as [|c s IH]; intros n; cbn [whole].
  - exists [], []. cbn. repeat split; auto using utf8_nil; try lia. intros ? ? ? E. discriminate E.
  - destruct (Nat.ltb_spec n (length (encode_char c))) as [L|L].
    + exists (c :: s), []. cbn [firstn app length]. repeat split; auto using utf8_nil; try lia. intros c' r bs [= <- <-] H. rewrite (char_code_is _ _ H). lia.
    + destruct (IH (n - length (encode_char c))) as (rest & l & E & H & B & M). exists rest, (encode_char c ++ l). cbn [firstn].
      split; [cbn [app]; congruence|]. split; [constructor; auto using char_code|]. rewrite app_length. split; [lia|].
      intros c' r bs X Y. specialize (M c' r bs X Y). lia.
Qed.

(** ** Writing *)
Definition as_text (fails : world) : world := fun out err file st s =>
  option_map (whole s) (fails (encode out) (encode err) (encode file) st (encode s)).
Lemma as_text_counts fails : counts fails (as_text fails).
Proof.
  intros out err file st s o e f l Ho He Hf Hs. apply text_code_is in Ho, He, Hf, Hs. subst. unfold as_text.
  destruct (fails _ _ _ st (encode s)) as [n|]; cbn [option_map]; auto. exists (whole s n). split; auto using complete_whole.
Qed.
Definition enc (w : write) : write := (fst w, encode (snd w)).
Lemma arrived_enc ws st : arrived (map enc ws) st = encode (arrived ws st).
Proof.
  induction ws as [|[st' s] ws IH]; [reflexivity|]. cbn [map]. change (enc (st', s) :: map enc ws) with ([enc (st', s)] ++ map enc ws).
  change ((st', s) :: ws) with ([(st', s)] ++ ws). rewrite !arrived_app, encode_app, IH. f_equal.
  unfold arrived, enc. cbn [flat_map fst snd]. rewrite !app_nil_r. destruct (stream_eqb st' st); reflexivity.
Qed.
Lemma perform_enc fails todo : forall done, exists tws ws status st p, perform (as_text fails) done todo = (tws, status) /\
  perform fails (map enc done) (map enc todo) = (ws, status) /\
  cut_char p /\ (status = 0%N -> p = []) /\ (p = [] \/ In st (map fst todo)) /\
  forall st', arrived ws st' = encode (arrived tws st') ++ (if stream_eqb st st' then p else []).
Proof.
  induction todo as [|[st s] todo IH]; intros done; cbn [map perform].
  - exists done, (map enc done), 0%N, ToFile, []. do 2 (split; [reflexivity|]). split; [left; auto|]. split; auto. split; auto.
    intros st'. rewrite arrived_enc. destruct (stream_eqb ToFile st'); rewrite app_nil_r; auto.
  - assert (E : map enc done ++ [enc (st, s)] = map enc (done ++ [(st, s)])) by (rewrite map_app; auto).
    assert (A : ask fails (map enc done) st (encode s) = None \/ s = [] \/ exists n, ask fails (map enc done) st (encode s) = Some n /\ s <> []).
    { destruct s; auto. destruct (ask fails (map enc done) st _); eauto. right. right. eexists. split; eauto. discriminate. }
    assert (G : exists tws ws status st0 p, perform (as_text fails) (done ++ [(st, s)]) todo = (tws, status) /\
       perform fails (map enc done ++ [enc (st, s)]) (map enc todo) = (ws, status) /\
       cut_char p /\ (status = 0%N -> p = []) /\ (p = [] \/ In st0 (st :: map fst todo)) /\
       forall st', arrived ws st' = encode (arrived tws st') ++ (if stream_eqb st0 st' then p else [])).
    { destruct (IH (done ++ [(st, s)])) as (tws & ws & status & st0 & p & P & Q & C & Z & I & H). exists tws, ws, status, st0, p. rewrite E.
      repeat (split; auto). destruct I; auto. right. right. auto. }
    assert (T : ask (as_text fails) done st s = option_map (whole s) (ask fails (map enc done) st (encode s))).
    { unfold ask, as_text. rewrite !arrived_enc. auto. }
    change (enc (st, s)) with (st, encode s) in *. cbv iota beta.
    destruct s as [|c s]; [exact G|]. rewrite T. cbn [map fst] in *.
    destruct (encode (c :: s)) as [|b l] eqn:Es; [apply encode_nil in Es; discriminate Es|].
    destruct A as [A|[A|(n & A & _)]]; [|discriminate A|].
    + rewrite A. cbn [option_map]. exact G.
    + rewrite A. cbn [option_map]. destruct (firstn_encode (c :: s) n) as (p & Ep & Cp). rewrite Es in Ep.
      do 2 eexists. exists 101%N, st, p. do 2 (split; [reflexivity|]). split; auto. split; [discriminate|]. split; [right; left; auto|].
      intros st'. rewrite !arrived_app, arrived_enc, encode_app, <- app_assoc. f_equal. cbn [arrived flat_map fst snd].
      rewrite !app_nil_r, Ep. destruct (stream_eqb st st'); auto.
Qed.

(** ** The process *)
Theorem byte_process_exact fails env files create hs argv :
  match byte_process fails env files create hs argv, process (as_text fails) env (read_to_string files) create hs argv with
  | Some (Ret e), Some (Ret t) => in_bytes t e
  | None, None => True
  | _, _ => False
  end.
Proof.
  unfold byte_process, process. destruct (parse_args argv) as [a|]; cbn [obind]; auto.
  destruct (shared_told (with_log env (negb (da_no_log a))) (read_to_string files) hs (da_command a)) as (ev & r & -> & _). cbn [bind]. cbv zeta.
  match goal with |- context [perform (as_text fails) [] ?t] => destruct (perform_enc fails t []) as (tws & ws & status & st & p & P & Q & C & Z & I & H) end.
  rewrite P. match goal with |- context [perform fails [] ?t] => replace (perform fails [] t) with (ws, status) by (symmetry; exact Q) end. unfold in_bytes. cbn [re_status re_file].
  set (file := match da_out a with Some q => Some (create q) | None => None end) in *.
  split; auto. split. { destruct file as [[|]|]; split; congruence. }
  exists st, p. split; auto. split; auto.
  assert (F : st = ToFile -> match file with Some (Ok _) => False | _ => True end -> p = []).
  { intros -> N. destruct I as [I|I]; auto. exfalso. revert I. unfold run_writes. rewrite !map_app, !in_app_iff. intros [I|[I|I]].
    - destruct file as [[|]|]; cbn in I; intuition discriminate.
    - destruct file as [[|]|]; [destruct N| |]; apply in_map_iff in I as (w & W & I); apply in_flat_map in I as (x & _ & I);
        destruct x; cbn in I; destruct I as [<-|[]]; discriminate W.
    - destruct r; cbn in I; intuition discriminate. }
  split. { intros S N. apply F; auto. destruct file as [[|]|]; auto. discriminate N. }
  intros st'. specialize (H st'). exists (encode (brought (mk_run_end (arrived tws ToStdout) (arrived tws ToStderr) match file with Some (Ok _) => Some (arrived tws ToFile) | _ => None end status) st')).
  split; [apply text_code|]. destruct st'; cbn [brought re_stdout re_stderr re_file]; auto.
  destruct file as [[|]|]; cbn [maybe]; auto; destruct st; cbn [stream_eqb app encode flat_map]; auto; symmetry; apply F; auto.
Qed.

Theorem process_in_bytes fails : exists tfails, counts fails tfails /\ forall env files create hs argv, exists seen, finds files seen /\
  match byte_process fails env files create hs argv, process tfails env seen create hs argv with
  | Some (Ret e), Some (Ret t) => in_bytes t e
  | None, None => True
  | _, _ => False
  end.
Proof.
  exists (as_text fails). split; [apply as_text_counts|]. intros env files create hs argv. exists (read_to_string files). split; [apply reads_texts|].
  apply byte_process_exact.
Qed.

Lemma byte_prefix fails env files create hs argv e e0 : byte_process fails env files create hs argv = Some (Ret e) ->
  process healthy env (read_to_string files) create hs argv = Some (Ret e0) -> forall st, prefix_of (brought e st) (encode (brought e0 st)).
Proof.
  unfold byte_process, process. destruct (parse_args argv) as [a|]; [|discriminate]. cbn [obind]. intros [= E] [= E0]. revert E E0.
  destruct (shared_told (with_log env (negb (da_no_log a))) (read_to_string files) hs (da_command a)) as (ev & r & -> & _). cbn [bind]. cbv zeta.
  match goal with |- context [perform healthy [] ?t] => set (all := t) end.
  destruct (perform_cases healthy all []) as [[K _]|(? & ? & ? & ? & ? & _ & _ & C & _)]; [|discriminate C]. rewrite K. cbn [app].
  destruct (perform_prefix fails (map enc all)) as (ws & status & P & H).
  match goal with |- context [perform fails [] ?t] => replace (perform fails [] t) with (ws, status) by (symmetry; exact P) end.
  intros [= <-] [= <-].
  assert (Y : forall st, prefix_of (arrived ws st) (encode (arrived all st))).
  { intros st. rewrite <- arrived_enc. destruct H as [[-> _]|[_ X]]; auto. exists []. rewrite app_nil_r. auto. }
  intros st. destruct st; cbn [brought re_stdout re_stderr re_file]; auto.
  destruct (da_out a) as [q|]; [destruct (create q)|]; cbn [maybe]; auto; exists []; auto.
Qed.
Lemma rust_prefix t s : prefix_of t s -> rust_text s -> rust_text t.
Proof. intros [w ->] H. apply Forall_app in H. tauto. Qed.
Lemma stream_eqb_eq a b : stream_eqb a b = true -> a = b.
Proof. destruct a, b; auto; discriminate. Qed.

Theorem process_reread fails env files create hs argv x : byte_process fails env files create hs argv = Some x -> exists e e0 seen,
  finds files seen /\ x = Ret e /\ process healthy env seen create hs argv = Some (Ret e0) /\ re_status e0 = 0%N /\
  (re_file e = None <-> re_file e0 = None) /\
  (forall st l, utf8 (brought e0 st) l -> prefix_of (brought e st) l /\ (re_status e = 0%N -> brought e st = l)) /\
  ((forall st, rust_text (brought e0 st)) ->
    (forall st t, from_utf8 (brought e st) = Some t -> prefix_of t (brought e0 st)) /\
    (re_status e = 0%N -> forall st, from_utf8 (brought e st) = Some (brought e0 st)) /\
    (forall st st', from_utf8 (brought e st) = None -> from_utf8 (brought e st') = None -> st = st')).
Proof.
  intros E. pose proof (byte_process_exact fails env files create hs argv) as B. rewrite E in B.
  destruct (process (as_text fails) env (read_to_string files) create hs argv) as [y|] eqn:Y; [|destruct x; destruct B].
  destruct (process_prefix _ _ _ _ _ _ _ Y) as (t & e0 & -> & E0 & S0 & P & F & All). destruct x as [e| |]; try (destruct B; fail).
  destruct B as (S & F' & st0 & p & C & Z & ZF & B). exists e, e0, (read_to_string files).
  split; [apply reads_texts|]. split; auto. split; auto. split; auto. split; [tauto|].
  assert (B' : forall st, brought e st = encode (brought t st) ++ (if stream_eqb st0 st then p else [])).
  { intros st. destruct (B st) as (l & L & ->). apply text_code_is in L as ->. auto. }
  assert (W : re_status e = 0%N -> forall st, brought e st = encode (brought e0 st)).
  { intros X st. rewrite B'. rewrite S in X. rewrite (Z X), (All X). destruct (stream_eqb st0 st); apply app_nil_r. }
  assert (Q : forall st, prefix_of (brought e st) (encode (brought e0 st))).
  { apply (byte_prefix _ _ _ _ _ _ _ _ E E0). }
  split; [|intros T].
  - intros st l L. apply text_code_is in L as ->. auto.
  - split; [|split].
    + intros st u U. apply from_utf8_spec in U as [U1 U2]. eapply utf8_prefix; eauto using text_code.
    + intros X st. apply from_utf8_spec. rewrite W by auto. split; auto using text_code.
    + assert (K : forall st, from_utf8 (brought e st) = None -> st0 = st).
      { intros st N. destruct (stream_eqb st0 st) eqn:X; [apply stream_eqb_eq; auto|]. exfalso. specialize (B' st). rewrite X, app_nil_r in B'.
        assert (R : from_utf8 (brought e st) = Some (brought t st)); [|congruence]. apply from_utf8_spec. rewrite B'. split; [|apply text_code].
        eapply rust_prefix; eauto. }
      intros st st' N N'. apply K in N, N'. congruence.
Qed.
