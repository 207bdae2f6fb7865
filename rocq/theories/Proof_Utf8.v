(** Facts about the UTF-8 conversions. *)
From Coq Require Import List Arith NArith ZArith Bool Lia ZifyN ZifyNat Ascii String.
From Verif Require Import Base Model_Utf8 Spec_Utf8.
Import ListNotations.
Open Scope list_scope.
Open Scope N_scope.
Ltac Zify.zify_post_hook ::= Z.div_mod_to_equations.

Lemma some_inj : forall A (x y : A), Some x = Some y -> x = y.
Proof. congruence. Qed.

Lemma between_true : forall lo x hi, between lo x hi = true <-> lo <= x <= hi.
Proof. intros. unfold between. rewrite andb_true_iff, !N.leb_le. tauto. Qed.
Lemma between_false : forall lo x hi, between lo x hi = false <-> ~ (lo <= x <= hi).
Proof. intros. rewrite <- between_true. destruct (between lo x hi); split; congruence. Qed.

Lemma land_mod : forall a n, N.land a (N.ones n) = a mod 2 ^ n.
Proof. intros. apply N.land_ones. Qed.
Lemma land63 : forall a, N.land a 63 = a mod 64.
Proof. intro a. exact (N.land_ones a 6). Qed.
Lemma land31 : forall a, N.land a 31 = a mod 32.
Proof. intro a. exact (N.land_ones a 5). Qed.
Lemma land15 : forall a, N.land a 15 = a mod 16.
Proof. intro a. exact (N.land_ones a 4). Qed.
Lemma land7 : forall a, N.land a 7 = a mod 8.
Proof. intro a. exact (N.land_ones a 3). Qed.

Lemma lor_add : forall k n x, x < 2 ^ n -> N.lor (k * 2 ^ n) x = k * 2 ^ n + x.
Proof.
  intros k n x H. rewrite <- N.shiftl_mul_pow2.
  assert (L : N.land (N.shiftl k n) x = 0).
  { apply N.bits_inj. intro i. rewrite N.land_spec, N.bits_0.
    destruct (N.lt_ge_cases i n) as [Hi|Hi].
    - now rewrite N.shiftl_spec_low.
    - destruct (N.eq_dec x 0) as [->|Nx]; [now rewrite N.bits_0, andb_false_r|].
      rewrite (N.bits_above_log2 x i), andb_false_r; [reflexivity|].
      apply N.log2_lt_pow2 in H; lia. }
  rewrite <- N.lxor_lor by assumption. symmetry. now apply N.add_nocarry_lxor.
Qed.

Lemma lor128 : forall x, x < 64 -> N.lor 128 x = 128 + x.
Proof. intros x H. apply (lor_add 2 6). exact H. Qed.
Lemma lor192 : forall x, x < 32 -> N.lor 192 x = 192 + x.
Proof. intros x H. apply (lor_add 6 5). exact H. Qed.
Lemma lor224 : forall x, x < 16 -> N.lor 224 x = 224 + x.
Proof. intros x H. apply (lor_add 14 4). exact H. Qed.
Lemma lor240 : forall x, x < 8 -> N.lor 240 x = 240 + x.
Proof. intros x H. apply (lor_add 30 3). exact H. Qed.

Lemma shr : forall c n, N.shiftr c n = c / 2 ^ n.
Proof. intros. apply N.shiftr_div_pow2. Qed.

(** c32rtomb writes the encoding. *)
Lemma c32rtomb_spec : forall c bs, c32rtomb c = Some bs -> encodes c bs.
Proof.
  intros c bs. unfold c32rtomb. rewrite !shr, !land63.
  change (2 ^ 6) with 64. change (2 ^ 12) with 4096. change (2 ^ 18) with 262144.
  destruct (N.ltb_spec c 128) as [H|H]. { intro E. injection E as <-. now constructor. }
  destruct (N.ltb_spec c 2048) as [H2|H2].
  { intro E. apply some_inj in E. subst bs. rewrite lor192, lor128 by lia.
    replace c with (c / 64 * 64 + c mod 64) at 1 by lia. constructor; lia. }
  destruct (N.ltb_spec c 65536) as [H3|H3].
  { destruct (between 55296 c 57343) eqn:B; [discriminate|]. apply between_false in B.
    intro E. apply some_inj in E. subst bs. rewrite lor224, !lor128 by lia.
    replace c with (c / 4096 * 4096 + c / 64 mod 64 * 64 + c mod 64) at 1 by lia.
    constructor; lia. }
  destruct (N.ltb_spec c 1114112) as [H4|H4]; [|discriminate].
  intro E. apply some_inj in E. subst bs. rewrite lor240, !lor128 by lia.
  replace c with (c / 262144 * 262144 + c / 4096 mod 64 * 4096 + c / 64 mod 64 * 64 + c mod 64) at 1 by lia.
  constructor; lia.
Qed.

Lemma c32rtomb_none : forall c, c32rtomb c = None <-> ~ scalar c.
Proof.
  intro c. unfold c32rtomb, scalar.
  destruct (N.ltb_spec c 128). { split; [discriminate|lia]. }
  destruct (N.ltb_spec c 2048). { split; [discriminate|lia]. }
  destruct (N.ltb_spec c 65536).
  { destruct (between 55296 c 57343) eqn:B.
    - apply between_true in B. split; [lia|reflexivity].
    - apply between_false in B. split; [discriminate|lia]. }
  destruct (N.ltb_spec c 1114112); split; try discriminate; try lia. reflexivity.
Qed.

Lemma encodes_det : forall c b1 b2, encodes c b1 -> encodes c b2 -> b1 = b2.
Proof.
  intros c b1 b2 H1 H2.
  destruct H1 as [c|x y Y R|x y z Y Z R Ns|w x y z X Y Z R];
  inversion H2 as [c' L E|x' y' Y' R' E|x' y' z' Y' Z' R' Ns' E|w' x' y' z' X' Y' Z' R' E]; clear H2; subst;
  try reflexivity; try lia.
  - assert (x = x') by lia. assert (y = y') by lia. subst. reflexivity.
  - assert (x = x') by lia. assert (y = y') by lia. assert (z = z') by lia. subst. reflexivity.
  - assert (w = w') by lia. assert (x = x') by lia. assert (y = y') by lia. assert (z = z') by lia. subst. reflexivity.
Qed.

Lemma encodes_scalar : forall c bs, encodes c bs -> scalar c.
Proof. intros c bs [c' H|x y Y R|x y z Y Z R Ns|w x y z X Y Z R]; unfold scalar; lia. Qed.

Lemma encodes_bytes : forall c bs, 0 < c -> encodes c bs -> bytes bs /\ bs <> [].
Proof.
  intros c bs P E. revert P. destruct E as [c' H|x y Y R|x y z Y Z R Ns|w x y z X Y Z R]; intro P; split; try discriminate;
  unfold bytes; repeat (apply Forall_cons; [lia|]); apply Forall_nil.
Qed.

(** The decoder inverts the encoding. *)
Lemma mbrtoc32_encodes : forall c bs rest, encodes c bs -> mbrtoc32 (bs ++ rest) = Some (c, rest).
Proof.
  intros c bs rest E. destruct E as [c H|x y Y R|x y z Y Z R Ns|w x y z X Y Z R]; cbn [app mbrtoc32].
  - destruct (N.leb_spec c 127); [reflexivity|lia].
  - destruct (N.leb_spec (192 + x) 127); [lia|].
    assert (B : between 194 (192 + x) 223 = true) by (apply between_true; lia). rewrite B.
    assert (B2 : between 128 (128 + y) 191 = true) by (apply between_true; lia). rewrite B2.
    rewrite land31, land63. do 2 f_equal. lia.
  - destruct (N.leb_spec (224 + x) 127); [lia|].
    assert (B : between 194 (224 + x) 223 = false) by (apply between_false; lia). rewrite B.
    assert (B1 : between 224 (224 + x) 239 = true) by (apply between_true; lia). rewrite B1. cbv zeta.
    assert (B3 : between 128 (128 + z) 191 = true) by (apply between_true; lia). rewrite B3.
    assert (B2 : between (if 224 + x =? 224 then 160 else 128) (128 + y) (if 224 + x =? 237 then 159 else 191) = true).
    { apply between_true. destruct (N.eqb_spec (224 + x) 224), (N.eqb_spec (224 + x) 237); lia. }
    rewrite B2. cbn [andb]. rewrite land15, !land63. do 2 f_equal. lia.
  - destruct (N.leb_spec (240 + w) 127); [lia|].
    assert (B : between 194 (240 + w) 223 = false) by (apply between_false; lia). rewrite B.
    assert (B1 : between 224 (240 + w) 239 = false) by (apply between_false; lia). rewrite B1.
    assert (B4 : between 240 (240 + w) 244 = true) by (apply between_true; lia). rewrite B4. cbv zeta.
    assert (B3 : between 128 (128 + z) 191 = true) by (apply between_true; lia). rewrite B3.
    assert (B5 : between 128 (128 + y) 191 = true) by (apply between_true; lia). rewrite B5.
    assert (B2 : between (if 240 + w =? 240 then 144 else 128) (128 + x) (if 240 + w =? 244 then 143 else 191) = true).
    { apply between_true. destruct (N.eqb_spec (240 + w) 240), (N.eqb_spec (240 + w) 244); lia. }
    rewrite B2. cbn [andb]. rewrite land7, !land63. do 2 f_equal. lia.
Qed.

(** What the decoder accepts is an encoding. *)
Lemma mbrtoc32_some : forall s c rest, mbrtoc32 s = Some (c, rest) -> exists bs, s = bs ++ rest /\ encodes c bs /\ bs <> [].
Proof.
  intros s c rest. unfold mbrtoc32. destruct s as [|a r]; [discriminate|].
  destruct (N.leb_spec a 127). { intro E. apply some_inj in E. apply pair_equal_spec in E as (<- & <-). exists [a]. split; [reflexivity|]. split; [constructor; lia|discriminate]. }
  destruct (between 194 a 223) eqn:B1.
  { apply between_true in B1. destruct r as [|b r]; [discriminate|]. destruct (between 128 b 191) eqn:B2; [|discriminate].
    apply between_true in B2. intro E. apply some_inj in E. apply pair_equal_spec in E as (<- & <-). exists [a; b]. split; [reflexivity|]. split; [|discriminate].
    rewrite land31, land63. replace a with (192 + a mod 32) at 2 by lia. replace b with (128 + b mod 64) at 2 by lia.
    constructor; lia. }
  destruct (between 224 a 239) eqn:B2.
  { apply between_true in B2. destruct r as [|b [|c0 r]]; try discriminate. cbv zeta.
    match goal with |- context [?x && ?y] => destruct x eqn:B3; [|discriminate] end.
    destruct (between 128 c0 191) eqn:B4; [|discriminate]. cbn [andb].
    apply between_true in B3. apply between_true in B4. intro E. apply some_inj in E. apply pair_equal_spec in E as (<- & <-).
    exists [a; b; c0]. split; [reflexivity|]. split; [|discriminate]. rewrite land15, !land63.
    destruct (N.eqb_spec a 224), (N.eqb_spec a 237);
    replace ((a mod 16 * 64 + b mod 64) * 64 + c0 mod 64) with (a mod 16 * 4096 + b mod 64 * 64 + c0 mod 64) by lia;
    replace a with (224 + a mod 16) at 2 by lia; replace b with (128 + b mod 64) at 2 by lia;
    replace c0 with (128 + c0 mod 64) at 2 by lia; constructor; lia. }
  destruct (between 240 a 244) eqn:B3; [|discriminate].
  apply between_true in B3. destruct r as [|b [|c0 [|d r]]]; try discriminate. cbv zeta.
  match goal with |- context [?x && _ && _] => destruct x eqn:B4; [|discriminate] end.
  destruct (between 128 c0 191) eqn:B5; [|discriminate].
  destruct (between 128 d 191) eqn:B6; [|discriminate]. cbn [andb].
  apply between_true in B4. apply between_true in B5. apply between_true in B6. intro E. apply some_inj in E. apply pair_equal_spec in E as (<- & <-).
  exists [a; b; c0; d]. split; [reflexivity|]. split; [|discriminate]. rewrite land7, !land63.
  destruct (N.eqb_spec a 240), (N.eqb_spec a 244);
  replace (((a mod 8 * 64 + b mod 64) * 64 + c0 mod 64) * 64 + d mod 64)
    with (a mod 8 * 262144 + b mod 64 * 4096 + c0 mod 64 * 64 + d mod 64) by lia;
  replace a with (240 + a mod 8) at 2 by lia; replace b with (128 + b mod 64) at 2 by lia;
  replace c0 with (128 + c0 mod 64) at 2 by lia; replace d with (128 + d mod 64) at 2 by lia; constructor; lia.
Qed.

(** The whole string. *)
Lemma mbs_loop_ok : forall f out str, (List.length str < f)%nat ->
  (exists t, utf8 t str /\ mbs_loop f out str = Decoded (rev out ++ t)) \/
  (exists t good bad, str = good ++ bad /\ utf8 t good /\ bad <> [] /\
     (forall c bs rest, encodes c bs -> bad <> bs ++ rest) /\
     mbs_loop f out str = IllegalAt (N.of_nat (List.length out + List.length t) + 1)).
Proof.
  induction f as [|f IH]; intros out str L; [lia|]. cbn [mbs_loop]. destruct str as [|a r].
  { left. exists []. split; [constructor|]. now rewrite app_nil_r. }
  destruct (mbrtoc32 (a :: r)) as [(c, rest)|] eqn:E.
  - apply mbrtoc32_some in E as (bs & E & En & Nb). rewrite E in *.
    destruct (IH (c :: out) rest) as [(t & U & ->)|(t & good & bad & -> & U & Nbad & No & ->)].
    { rewrite app_length in L. destruct bs; [congruence|]. cbn [List.length] in L. lia. }
    + left. exists (c :: t). split; [now constructor|]. cbn [rev]. now rewrite <- app_assoc.
    + right. exists (c :: t), (bs ++ good), bad. split; [now rewrite app_assoc|].
      split; [now constructor|]. split; [assumption|]. split; [assumption|]. cbn [List.length]. do 2 f_equal. lia.
  - right. exists [], [], (a :: r). split; [reflexivity|]. split; [constructor|]. split; [discriminate|]. split.
    + intros c bs rest En X. rewrite X, (mbrtoc32_encodes _ _ _ En) in E. discriminate.
    + cbn [List.length]. now rewrite Nat.add_0_r.
Qed.

Lemma utf8_decode_det : forall t1 s, utf8 t1 s -> forall t2, utf8 t2 s -> t1 = t2.
Proof.
  intros t1 s U. induction U as [|c bs t rest E U IH]; intros t2 U2.
  - inversion U2 as [|c bs t rest E U E1 E2]; [reflexivity|].
    destruct E; discriminate.
  - inversion U2 as [E1 E2|c' bs' t' rest' E' U' E1 E2]; subst.
    + destruct E; discriminate.
    + pose proof (mbrtoc32_encodes _ _ rest E) as M1. pose proof (mbrtoc32_encodes _ _ rest' E') as M2.
      rewrite E2, M1 in M2. injection M2 as -> ->. f_equal. now apply IH.
Qed.

Lemma no_prefix : forall t good bad, utf8 t good -> bad <> [] ->
  (forall c bs rest, encodes c bs -> bad <> bs ++ rest) -> forall t', ~ utf8 t' (good ++ bad).
Proof.
  intros t good bad U Nb No. induction U as [|c bs t rest E U IH]; intros t' U'.
  - cbn [app] in U'. inversion U' as [E1 E2|c bs t rest E U E1 E2]; subst; [congruence|]. now apply (No c bs rest).
  - rewrite <- app_assoc in U'.
    inversion U' as [E1 E2|c' bs' t2 rest' E' U2 E1 E2]; subst.
    + destruct E; discriminate.
    + pose proof (mbrtoc32_encodes _ _ (rest ++ bad) E) as M1. pose proof (mbrtoc32_encodes _ _ rest' E') as M2.
      rewrite E2, M1 in M2. injection M2 as <- <-. exact (IH _ U2).
Qed.

Lemma decode_ends_l : forall str,
  (exists t, utf8 t str /\ mbstoc32s str = Decoded t) \/
  (exists t good bad, str = good ++ bad /\ utf8 t good /\
     (forall c bs rest, encodes c bs -> bad <> bs ++ rest) /\
     (forall t', ~ utf8 t' str) /\
     mbstoc32s str = IllegalAt (N.of_nat (List.length t) + 1)).
Proof.
  intro str. destruct (mbs_loop_ok (S (List.length str)) [] str) as [(t & U & E)|(t & good & bad & E & U & Nb & No & E2)]; [lia| |].
  - left. exists t. auto.
  - right. exists t, good, bad. split; [assumption|]. split; [assumption|]. split; [assumption|]. split; [|assumption].
    intro t'. rewrite E. now apply (no_prefix t).
Qed.

Lemma encode_ok : forall t, (Forall scalar t -> exists bs, c32stombs t = Some bs /\ utf8 t bs) /\
  (~ Forall scalar t -> c32stombs t = None).
Proof.
  induction t as [|c t (IH1 & IH2)]; cbn [c32stombs].
  - split; [|intro H; exfalso; apply H; constructor]. intros _. exists []. split; [reflexivity|constructor].
  - destruct (c32rtomb c) as [bs|] eqn:E.
    + split.
      * intro F. inversion F as [|? ? S F']; subst. destruct (IH1 F') as (r & -> & U).
        eexists. split; [reflexivity|]. constructor; [now apply c32rtomb_spec|assumption].
      * intro F. rewrite IH2; [reflexivity|]. intro F'. apply F. constructor; [|assumption].
        destruct (c32rtomb_none c) as (_ & X). apply c32rtomb_spec in E. now apply encodes_scalar in E.
    + apply c32rtomb_none in E. split; [|reflexivity]. intro F. inversion F; subst. contradiction.
Qed.

Lemma encode_some_l : forall t bs, c32stombs t = Some bs <-> utf8 t bs.
Proof.
  induction t as [|c t IH]; intro bs; cbn [c32stombs].
  - split; [intro E; injection E as <-; constructor|intro U; inversion U; subst; reflexivity].
  - split.
    + destruct (c32rtomb c) as [b|] eqn:E; [|discriminate]. destruct (c32stombs t) as [r|] eqn:E2; [|discriminate].
      intro X. injection X as <-. constructor; [now apply c32rtomb_spec|now apply IH].
    + intro U. inversion U as [|? b ? r E U' E1 E2]; subst.
      apply IH in U'. rewrite U'. pose proof (encodes_scalar _ _ E) as S.
      destruct (c32rtomb c) as [b'|] eqn:E3.
      * apply c32rtomb_spec in E3. now rewrite (encodes_det _ _ _ E3 E).
      * apply c32rtomb_none in E3. contradiction.
Qed.

Lemma decode_utf8_l : forall t str, mbstoc32s str = Decoded t <-> utf8 t str.
Proof.
  intros t str. destruct (decode_ends_l str) as [(t' & U & ->)|(t' & g & b & E & U & No & Nu & ->)].
  - split; [intro X; injection X as <-; assumption|]. intro U2. f_equal. eapply utf8_decode_det; eassumption.
  - split; [discriminate|]. intro U2. exfalso. exact (Nu _ U2).
Qed.

(** ASCII texts are their own encoding. *)
Lemma ascii_mbs : forall t, Forall (fun c => c < 128) t -> c32stombs t = Some t.
Proof.
  induction t as [|c t IH]; intro F; [reflexivity|]. inversion F as [|? ? H F']; subst.
  cbn [c32stombs]. unfold c32rtomb. apply N.ltb_lt in H. rewrite H, (IH F'). reflexivity.
Qed.
