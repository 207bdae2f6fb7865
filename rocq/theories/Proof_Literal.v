(** Evaluation of integer, float and boolean literals. *)
From Coq Require Import List Arith NArith ZArith Bool Lia Ascii String.
From Verif Require Import Base Model_Token Model_Utf8 Model_Classify Model_Literal
  Spec_Token Spec_Classify Spec_Utf8 Spec_Literal Proof_Utf8 Proof_Classify Proof_Classify2.
Import ListNotations.
Open Scope list_scope.
Open Scope N_scope.

(** ** Digits *)
Lemma digit_is_value : forall c d, digit_is c d -> digit_value c = N.of_nat d /\ hex_digit c /\ (d < 16)%nat.
Proof.
  intros c d [H|H]; do 16 (destruct d as [|d]; [apply some_inj in H; rewrite <- H;
    split; [reflexivity|split; [unfold hex_digit, digit; cbn; lia|lia]]|]);
  exfalso; cbn in H; destruct d; discriminate.
Qed.

Lemma hex_digit_is : forall c, hex_digit c -> digit_is c (N.to_nat (digit_value c)).
Proof.
  intros c H. unfold hex_digit, digit in H.
  assert (X : In c (places ++ upper_places)).
  { cbn. change (chr "0") with 48 in H. change (chr "9") with 57 in H. change (chr "a") with 97 in H. change (chr "f") with 102 in H.
    change (chr "A") with 65 in H. change (chr "F") with 70 in H.
    assert (E : c = 48 \/ c = 49 \/ c = 50 \/ c = 51 \/ c = 52 \/ c = 53 \/ c = 54 \/ c = 55 \/ c = 56 \/ c = 57
      \/ c = 97 \/ c = 98 \/ c = 99 \/ c = 100 \/ c = 101 \/ c = 102 \/ c = 65 \/ c = 66 \/ c = 67 \/ c = 68 \/ c = 69 \/ c = 70) by lia.
    repeat (destruct E as [E|E]; [subst c; tauto|]). subst c; tauto. }
  cbn in X. repeat (destruct X as [<-|X]; [first [left; reflexivity|right; reflexivity]|]). destruct X.
Qed.

Definition nounder (s : text) : text := filter (fun c => negb (c =? under)) s.

(** Text behind a number: empty or starting with something that is no digit. *)
Definition nodigit (base : N) (r : text) : Prop := r = [] \/ exists c r', r = c :: r' /\ base <= digit_value c.

Lemma strto_number : forall base s n v, number (Z.of_N base) s n v ->
  Forall (fun c => c = under \/ digit_value c < base) s -> forall acc rest, nodigit base rest ->
  Z.of_N (strto_digits base acc (nounder s ++ rest)) = (Z.of_N acc * Z.of_N base ^ Z.of_nat n + v)%Z.
Proof.
  intros base s n v H. induction H as [|s n v H IH|c d s n v Hd H IH]; intros F acc rest R.
  - cbn [nounder filter app]. destruct R as [->|(c & r & -> & L)]; cbn [strto_digits].
    + cbn. lia.
    + apply N.ltb_ge in L. rewrite L. cbn. lia.
  - cbn [nounder filter]. rewrite N.eqb_refl. cbn [negb]. apply IH; [now apply Forall_inv_tail in F|assumption].
  - apply Forall_cons_iff in F as (Fc & F). destruct (digit_is_value _ _ Hd) as (V & Hx & _).
    destruct Fc as [->|Fc]; [now apply hex_not_under in Hx|].
    assert (E : (c =? under) = false) by (apply N.eqb_neq; intros ->; now apply hex_not_under in Hx).
    cbn [nounder filter]. rewrite E. cbn [negb app strto_digits]. apply N.ltb_lt in Fc. rewrite Fc.
    rewrite (IH F _ _ R). rewrite N2Z.inj_add, N2Z.inj_mul, V.
    rewrite Nat2Z.inj_succ, Z.pow_succ_r by lia. rewrite nat_N_Z. ring.
Qed.

Lemma digits_forall : forall D s, digits D s -> Forall (fun c => c = under \/ D c) s.
Proof.
  intros D s H. induction H as [d Hd|d s Hd Hs IH|d s Hd Hs IH]; repeat (apply Forall_cons; [auto|]); auto using Forall_nil.
Qed.

Lemma number_exists : forall base s, Forall (fun c => c = under \/ hex_digit c) s -> exists n v, number base s n v.
Proof.
  intros base s H. induction H as [|c s [->|Hc] H (n & v & IH)].
  - exists 0%nat, 0%Z. constructor.
  - exists n, v. now constructor.
  - exists (S n), (Z.of_nat (N.to_nat (digit_value c)) * base ^ Z.of_nat n + v)%Z. constructor; [now apply hex_digit_is|assumption].
Qed.

Lemma number_nonneg : forall base s n v, (0 <= base)%Z -> number base s n v -> (0 <= v)%Z.
Proof.
  intros base s n v Hb H. induction H as [|s n v H IH|c d s n v Hd H IH]; [lia|assumption|].
  apply Z.add_nonneg_nonneg; [|assumption]. apply Z.mul_nonneg_nonneg; [lia|]. apply Z.pow_nonneg. assumption.
Qed.

(** ** Stripping underscores *)
Lemma strip_none : forall l, ~ In under l -> ~ In 0 l -> strip_underscore_num 0 l = Ok l.
Proof.
  induction l as [|c l IH]; intros A B; [reflexivity|]. cbn [strip_underscore_num].
  assert (E1 : (c =? 0) = false) by (apply N.eqb_neq; intros ->; apply B; now left).
  assert (E2 : (c =? under) = false) by (apply N.eqb_neq; intros ->; apply A; now left).
  rewrite E1, E2, IH; [reflexivity| |]; intro X; [apply A|apply B]; now right.
Qed.

Lemma strip_under : forall stop c l, c <> under -> c <> stop -> stop <> under -> 
  strip_underscore_num stop (under :: c :: l) = strip_underscore_num stop (c :: l).
Proof.
  intros stop c l H1 H2 H3. cbn [strip_underscore_num].
  assert (E : (under =? stop) = false) by (apply N.eqb_neq; congruence).
  apply N.eqb_neq in H1. apply N.eqb_neq in H2. now rewrite E, H1, H2, N.eqb_refl.
Qed.

Lemma strip_digits : forall D stop s, digits D s -> (forall c, D c -> c <> stop /\ c <> under) -> stop <> under ->
  forall rest t, strip_underscore_num stop rest = Ok t ->
  strip_underscore_num stop (s ++ rest) = Ok (nounder s ++ t).
Proof.
  intros D stop s H HD Ns. induction H as [d Hd|d s Hd Hs IH|d s Hd Hs IH]; intros rest t R.
  - destruct (HD d Hd) as (A & B). apply N.eqb_neq in A. apply N.eqb_neq in B.
    cbn [app strip_underscore_num nounder filter]. rewrite A, B, R. reflexivity.
  - destruct (HD d Hd) as (A & B). apply N.eqb_neq in A. apply N.eqb_neq in B.
    cbn [app strip_underscore_num nounder filter]. rewrite A, B. fold (nounder s). rewrite (IH _ _ R). reflexivity.
  - destruct (HD d Hd) as (A & B). apply N.eqb_neq in A. apply N.eqb_neq in B.
    destruct (digits_head _ _ Hs) as (y & s' & E & Hy). destruct (HD y Hy) as (A' & B').
    cbn [app]. change (strip_underscore_num stop (d :: under :: s ++ rest)) with
      (if d =? stop then Ok (d :: under :: s ++ rest) else if d =? under then
         do t <- strip_underscore_num stop (s ++ rest); Ok (under :: t) else
         do t <- strip_underscore_num stop (under :: s ++ rest); Ok (d :: t)).
    rewrite A, B.
    assert (Es : strip_underscore_num stop (under :: s ++ rest) = strip_underscore_num stop (s ++ rest)).
    { rewrite E. cbn [app]. now apply strip_under. }
    rewrite Es, (IH _ _ R). cbn [bind nounder filter]. rewrite B, N.eqb_refl. reflexivity.
Qed.

(** ** The text behind the word *)
Lemma c32stombs_app : forall a b, c32stombs (a ++ b) =
  match c32stombs a, c32stombs b with Some x, Some y => Some (x ++ y) | _, _ => None end.
Proof.
  induction a as [|c a IH]; intro b; cbn [app c32stombs].
  - now destruct (c32stombs b).
  - rewrite IH. destruct (c32rtomb c); [|reflexivity]. destruct (c32stombs a); [|reflexivity].
    destruct (c32stombs b); [|reflexivity]. now rewrite app_assoc.
Qed.

(** Separators are ASCII, no digits and no underscore. *)
Lemma separator_facts : forall c, blank c \/ delimiter c -> c < 128 /\ c <> under /\ c <> 0 /\ digit_value c = 36 /\
  c <> chr "b" /\ c <> chr "o" /\ c <> chr "x" /\ c <> chr "X".
Proof.
  intros c [H|H]; cbn in H; repeat (destruct H as [<-|H]; [repeat split; try (cbn; lia); discriminate|]); destruct H.
Qed.

Lemma encodes_no_under : forall c bs, encodes c bs -> c <> under -> c <> 0 -> ~ In under bs /\ ~ In 0 bs.
Proof.
  intros c bs [x H|x y H1 H2|x y z H1 H2 H3 H4|w x y z H1 H2 H3 H4] N1 N2; change under with 95 in *; cbn [In];
    split; intros X; repeat destruct X as [X|X]; try assumption; try congruence; lia.
Qed.

Lemma tail_text : forall post, stops post -> Forall scalar post -> source post -> ~ under_behind post -> forall n, (n <= 2)%nat ->
  exists t, c32stombs (firstn n post) = Some t /\ strip_underscore_num 0 t = Ok t /\
    (t = [] \/ exists c t', t = c :: t' /\ (blank c \/ delimiter c)).
Proof.
  intros post S F NZ U n L. destruct S as [->|(c & r & -> & Hc)].
  - exists []. rewrite firstn_nil. auto.
  - destruct (separator_facts c Hc) as (A & B & Z & _).
    assert (Ec : c32rtomb c = Some [c]) by (unfold c32rtomb; apply N.ltb_lt in A; now rewrite A).
    destruct n as [|[|[|n]]]; [|  | |lia].
    + exists []. auto.
    + exists [c]. cbn [firstn c32stombs]. rewrite Ec. split; [reflexivity|]. split.
      * apply strip_none; intros [X|[]]; congruence.
      * right. eauto.
    + destruct r as [|y r].
      * exists [c]. cbn [firstn c32stombs]. rewrite Ec. split; [reflexivity|]. split.
        -- apply strip_none; intros [X|[]]; congruence.
        -- right. eauto.
      * assert (Hy : y <> under) by (intros ->; apply U; eexists _, _; reflexivity).
        assert (Zy : y <> 0) by (intros ->; apply NZ; right; now left).
        apply Forall_inv_tail, Forall_inv in F. destruct (c32rtomb y) as [bs|] eqn:E; [|now apply c32rtomb_none in E].
        exists (c :: bs). cbn [firstn c32stombs]. rewrite Ec, E, app_nil_r. split; [reflexivity|].
        apply c32rtomb_spec in E. destruct (encodes_no_under _ _ E Hy Zy) as (I1 & I2). split.
        -- apply strip_none; intros [X|X]; congruence || contradiction.
        -- right. eauto.
Qed.

(** ** strtoll on a clean number *)
Definition clamp (v : Z) : Z * bool :=
  if (v <? LLONG_MIN)%Z then (LLONG_MIN, true) else if (v >? LLONG_MAX)%Z then (LLONG_MAX, true) else (v, false).

Lemma strtoll_pos : forall base s n v t, digits hex_digit s -> Forall (fun c => c = under \/ digit_value c < base) s ->
  number (Z.of_N base) s n v -> base <= 36 ->
  (t = [] \/ exists c t', t = c :: t' /\ (blank c \/ delimiter c)) ->
  strtoll (nounder s ++ t) base = clamp v.
Proof.
  intros base s n v t Ds F Nb Lb T.
  assert (R : nodigit base t).
  { destruct T as [->|(c & t' & -> & H)]; [now left|right]. exists c, t'. split; [reflexivity|].
    destruct (separator_facts c H) as (_ & _ & _ & -> & _). assumption. }
  pose proof (strto_number _ _ _ _ Nb F 0 _ R) as V. cbn [Z.of_N] in V. rewrite Z.mul_0_l, Z.add_0_l in V.
  pose proof (number_nonneg (Z.of_N base) s n v ltac:(lia) Nb) as Pos.
  assert (Hd : exists d r, s = d :: r /\ hex_digit d) by (now apply digits_head). destruct Hd as (d & r & Es & Hd).
  assert (Nu : (d =? under) = false) by (apply N.eqb_neq; intros ->; now apply hex_not_under in Hd).
  assert (E0 : nounder s ++ t = d :: nounder r ++ t) by (subst s; cbn [nounder filter]; rewrite Nu; reflexivity).
  assert (Dd : (d =? 32) || between 9 d 13 = false /\ (d =? chr "-") = false /\ (d =? chr "+") = false).
  { unfold hex_digit, digit in Hd. change (chr "0") with 48 in *. change (chr "9") with 57 in *. change (chr "a") with 97 in *. change (chr "f") with 102 in *.
    change (chr "A") with 65 in *. change (chr "F") with 70 in *. change (chr "-") with 45. change (chr "+") with 43.
    rewrite orb_false_iff, between_false, !N.eqb_neq. lia. }
  destruct Dd as (D1 & D2 & D3). unfold strtoll.
  assert (Sk : skip_space (nounder s ++ t) = nounder s ++ t) by (rewrite E0; cbn [skip_space]; now rewrite D1). rewrite Sk.
  assert (Hh : hd 0 (nounder s ++ t) = d) by (now rewrite E0). rewrite Hh, D2, D3. cbn [orb]. rewrite Hh.
  assert (Nx : (nth 1 (nounder s ++ t) 0 =? chr "x") || (nth 1 (nounder s ++ t) 0 =? chr "X") = false).
  { rewrite E0. cbn [nth].
    assert (X : forall c, (hex_digit c \/ blank c \/ delimiter c \/ c = 0) -> (c =? chr "x") || (c =? chr "X") = false).
    { intros c H. apply orb_false_iff. rewrite !N.eqb_neq. destruct H as [H|H].
      - unfold hex_digit, digit in H. change (chr "0") with 48 in *. change (chr "9") with 57 in *. change (chr "a") with 97 in *. change (chr "f") with 102 in *.
        change (chr "A") with 65 in *. change (chr "F") with 70 in *. change (chr "x") with 120. change (chr "X") with 88. lia.
      - assert (H' : (blank c \/ delimiter c) \/ c = 0) by tauto. destruct H' as [H'| ->]; [|split; discriminate].
        apply separator_facts in H'. tauto. }
    apply X. destruct (nounder r) as [|y r'] eqn:Er; cbn [app nth].
    - destruct T as [->|(c & t' & -> & H)]; [cbn; auto|cbn [nth]; tauto].
    - left. assert (Iy : In y (nounder r)) by (rewrite Er; now left). unfold nounder in Iy. apply filter_In in Iy as (Iy & Ny).
      apply negb_true_iff, N.eqb_neq in Ny. pose proof (digits_forall _ _ Ds) as Fd. subst s. apply Forall_inv_tail in Fd.
      rewrite Forall_forall in Fd. destruct (Fd y Iy) as [|]; [contradiction|assumption]. }
  cbv zeta. rewrite Nx, andb_false_r. cbn [andb]. rewrite V. unfold clamp.
  assert (X : (v <? LLONG_MIN)%Z = false) by (apply Z.ltb_ge; unfold LLONG_MIN; lia). now rewrite X.
Qed.

Lemma strtoll_neg : forall s n v t, digits digit s -> number 10 s n v ->
  (t = [] \/ exists c t', t = c :: t' /\ (blank c \/ delimiter c)) ->
  strtoll (chr "-" :: nounder s ++ t) 10 = clamp (- v).
Proof.
  intros s n v t Ds Nb T.
  assert (R : nodigit 10 t).
  { destruct T as [->|(c & t' & -> & H)]; [now left|right]. exists c, t'. split; [reflexivity|].
    destruct (separator_facts c H) as (_ & _ & _ & -> & _). lia. }
  assert (F : Forall (fun c => c = under \/ digit_value c < 10) s).
  { eapply Forall_impl; [|apply (digits_forall _ _ Ds)]. intros c [H|H]; [now left|right]. unfold digit in H.
    unfold digit_value. assert (X : between (chr "0") c (chr "9") = true) by (now apply between_true). rewrite X.
    change (chr "0") with 48 in *. change (chr "9") with 57 in *. lia. }
  pose proof (strto_number 10 _ _ _ Nb F 0 _ R) as V. cbn [Z.of_N] in V. rewrite Z.mul_0_l, Z.add_0_l in V.
  pose proof (number_nonneg 10 s n v ltac:(lia) Nb) as Pos.
  unfold strtoll. cbn [skip_space]. change ((chr "-" =? 32) || between 9 (chr "-") 13) with false. cbv iota zeta.
  cbn [hd tl]. rewrite N.eqb_refl. cbn [orb]. change (10 =? 16) with false. cbn [andb]. rewrite V. unfold clamp, LLONG_MIN, LLONG_MAX.
  destruct (v >? 2 ^ 63)%Z eqn:E.
  - assert (X : (- v <? - 2 ^ 63)%Z = true) by lia. now rewrite X.
  - assert (X : (- v <? - 2 ^ 63)%Z = false) by lia. assert (Y : (- v >? 2 ^ 63 - 1)%Z = false) by lia. now rewrite X, Y.
Qed.

Lemma clamp_lit : forall v,
  (let '(ret, erange) := clamp v in
   if ((ret =? LLONG_MAX)%Z || (ret =? LLONG_MIN)%Z) && erange then Ok (Bad ERR_OVERFLOW) else Ok (Val ret)) =
  (if ((- 2 ^ 63 <=? v) && (v <=? 2 ^ 63 - 1))%Z then Ok (Val v) else Ok (Bad ERR_OVERFLOW)).
Proof.
  intro v. unfold clamp, LLONG_MIN, LLONG_MAX. destruct (v <? - 2 ^ 63)%Z eqn:A.
  - rewrite Z.eqb_refl, orb_true_r. assert (X : (- 2 ^ 63 <=? v)%Z = false) by lia. now rewrite X.
  - destruct (v >? 2 ^ 63 - 1)%Z eqn:B.
    + rewrite Z.eqb_refl. assert (X : (v <=? 2 ^ 63 - 1)%Z = false) by lia. now rewrite X, andb_false_r.
    + rewrite andb_false_r. assert (X : (- 2 ^ 63 <=? v)%Z = true) by lia. assert (Y : (v <=? 2 ^ 63 - 1)%Z = true) by lia. now rewrite X, Y.
Qed.

(** ** eval_integer *)
Lemma firstn_extra : forall (s post : text) k, firstn (List.length s + k) (s ++ post) = s ++ firstn k post.
Proof. intros. apply firstn_app_2. Qed.

Lemma digits_ascii : forall D s, digits D s -> (forall c, D c -> hex_digit c) -> Forall (fun c => c < 128) s.
Proof.
  intros D s H HD. eapply Forall_impl; [|apply (digits_forall _ _ H)]. intros c [->|Hc]; [reflexivity|].
  apply HD in Hc. unfold hex_digit, digit in Hc.
  change (chr "0") with 48 in *. change (chr "9") with 57 in *. change (chr "a") with 97 in *. change (chr "f") with 102 in *.
  change (chr "A") with 65 in *. change (chr "F") with 70 in *. lia.
Qed.

Lemma sub_hex : (forall c, digit c -> hex_digit c) /\ (forall c, octal_digit c -> hex_digit c) /\ (forall c, binary_digit c -> hex_digit c).
Proof.
  unfold hex_digit, octal_digit, binary_digit, digit.
  change (chr "0") with 48 in *. change (chr "9") with 57 in *. change (chr "7") with 55. change (chr "1") with 49. repeat split; intros; lia.
Qed.

Lemma digits_mono : forall (D E : N -> Prop) s, (forall c, D c -> E c) -> digits D s -> digits E s.
Proof. intros D E s H X. induction X; [apply dg_one|apply dg_more|apply dg_under]; auto. Qed.

Lemma digit_vals : (forall c, digit c -> digit_value c < 10) /\ (forall c, hex_digit c -> digit_value c < 16) /\
  (forall c, octal_digit c -> digit_value c < 8) /\ (forall c, binary_digit c -> digit_value c < 2).
Proof.
  assert (Dv : forall c, between 48 c 57 = true -> digit_value c = c - 48).
  { intros c H. unfold digit_value. change (chr "0") with 48. change (chr "9") with 57. now rewrite H. }
  repeat split; intros c H.
  - unfold digit in H. change (chr "0") with 48 in *. change (chr "9") with 57 in *. rewrite Dv by (now apply between_true). lia.
  - apply hex_digit_is, digit_is_value in H as (V & _ & L). lia.
  - unfold octal_digit in H. change (chr "0") with 48 in *. change (chr "7") with 55 in *. rewrite Dv by (apply between_true; lia). lia.
  - unfold binary_digit in H. change (chr "0") with 48 in *. change (chr "1") with 49 in *. rewrite Dv by (apply between_true; lia). lia.
Qed.

Lemma hex_no_zero : forall c, hex_digit c -> c <> 0 /\ c <> under.
Proof.
  intros c H. split; intros ->; [|now apply hex_not_under in H]. unfold hex_digit, digit in H. cbn in H. lia.
Qed.

(** The text strtoll gets for a number at offset `off` behind the start of the token. *)
Lemma num_text : forall pre s post off D (pfx : text), off = List.length pfx -> digits D s -> (forall c, D c -> hex_digit c) ->
  stops post -> Forall scalar post -> source post -> ~ under_behind post -> (off <= 2)%nat ->
  exists t, (t = [] \/ exists c t', t = c :: t' /\ (blank c \/ delimiter c)) /\
  (do num <- token_to_mbs_str (pre ++ (pfx ++ s) ++ post)
     (mktok (Some (List.length pre + off)%nat) (N.of_nat (List.length (pfx ++ s))) T_UNKNOWN (mkloc 0 0));
   strip_underscore_num 0 num) = Ok (nounder s ++ t).
Proof.
  intros pre s post off D pfx Eo Ds HD S F NZ U L.
  destruct (tail_text post S F NZ U off L) as (t & E1 & E2 & E3). exists t. split; [assumption|].
  unfold token_to_mbs_str, token_to_string. cbn [t_begin t_len].
  assert (P : pre ++ (pfx ++ s) ++ post = (pre ++ pfx) ++ (s ++ post)) by (now rewrite <- !app_assoc).
  rewrite P. replace (List.length pre + off)%nat with (List.length (pre ++ pfx)) by (rewrite app_length; lia).
  rewrite from_ptr_at. cbn [bind]. rewrite Nnat.Nat2N.id, app_length.
  replace (List.length pfx + List.length s)%nat with (List.length s + off)%nat by lia.
  rewrite firstn_extra, c32stombs_app, (ascii_mbs s) by (now apply (digits_ascii D)). rewrite E1. cbn [bind].
  apply (strip_digits D); [assumption| |discriminate|assumption]. intros c Hc. now apply hex_no_zero, HD.
Qed.

Lemma rd_app : forall pre c r, rd (pre ++ c :: r) (List.length pre) = Ok c.
Proof.
  intros pre c r. unfold rd. rewrite app_length. cbn [List.length].
  assert (X : (List.length pre <? List.length pre + S (List.length r))%nat = true) by (apply Nat.ltb_lt; lia). rewrite X.
  f_equal. rewrite app_nth2 by lia. now rewrite Nat.sub_diag.
Qed.

Lemma rd0 : forall c r, rd (c :: r) 0 = Ok c.
Proof. intros c r. apply (rd_app [] c r). Qed.
Lemma rd1 : forall c d r, rd (c :: d :: r) 1 = Ok d.
Proof. intros c d r. apply (rd_app [c] d r). Qed.

Definition final (v : Z) : res (lit Z) :=
  if ((- 2 ^ 63 <=? v) && (v <=? 2 ^ 63 - 1))%Z then Ok (Val v) else Ok (Bad ERR_OVERFLOW).

Lemma eval_prefixed : forall pre s post t m base D n v,
  (m = chr "b" /\ base = 2 \/ m = chr "o" /\ base = 8 \/ m = chr "x" /\ base = 16) ->
  digits D s -> (forall c, D c -> hex_digit c) -> (forall c, D c -> digit_value c < base) -> number (Z.of_N base) s n v ->
  stops post -> Forall scalar post -> source post -> ~ under_behind post ->
  t_begin t = Some (List.length pre) -> t_len t = N.of_nat (List.length ([chr "0"; m] ++ s)) ->
  eval_integer (pre ++ ([chr "0"; m] ++ s) ++ post) t = final v.
Proof.
  intros pre s post t m base D n v M Ds HD HV Nb S F NZ U B L.
  unfold eval_integer. rewrite B, L, from_ptr_at. cbn [bind].
  change (([chr "0"; m] ++ s) ++ post) with (chr "0" :: m :: s ++ post).
  rewrite rd0. cbn [bind]. rewrite N.eqb_refl.
  rewrite rd1. cbn [bind].
  assert (Eb : (if m =? chr "b" then (2%nat, 2) else if m =? chr "o" then (2%nat, 8) else if m =? chr "x" then (2%nat, 16) else (0%nat, 10)) = (2%nat, base)).
  { destruct M as [(-> & ->)|[(-> & ->)|(-> & ->)]]; reflexivity. }
  rewrite Eb. cbn [option_map].
  destruct (num_text pre s post 2 D [chr "0"; m] eq_refl Ds HD S F NZ U ltac:(lia)) as (tx & T & E).
  change (chr "0" :: m :: s ++ post) with (([chr "0"; m] ++ s) ++ post).
  destruct (token_to_mbs_str _ _) as [num|]; [|discriminate]. cbn [bind] in E |- *. rewrite E. cbn [bind].
  rewrite (strtoll_pos base s n v tx); [apply clamp_lit| | |assumption| |assumption].
  - apply (digits_mono D); assumption.
  - eapply Forall_impl; [|apply (digits_forall _ _ Ds)]. intros c [X|X]; [now left|right; now apply HV].
  - destruct M as [(_ & ->)|[(_ & ->)|(_ & ->)]]; lia.
Qed.

Lemma tail_zero : forall post, stops post -> 
  exists t, c32stombs (firstn 0 post) = Some t /\ strip_underscore_num 0 t = Ok t /\ t = [].
Proof. intros post _. exists []. auto. Qed.

(** Decimal literals are copied without the text behind them. *)
Lemma num_text0 : forall pre w s post, (w = s \/ w = chr "-" :: s) -> digits digit s ->
  (do num <- token_to_mbs_str (pre ++ w ++ post)
     (mktok (Some (List.length pre + 0)%nat) (N.of_nat (List.length w)) T_UNKNOWN (mkloc 0 0));
   strip_underscore_num 0 num) = Ok (if list_eq_dec N.eq_dec w s then nounder s else chr "-" :: nounder s).
Proof.
  intros pre w s post W Ds. unfold token_to_mbs_str, token_to_string. cbn [t_begin t_len].
  rewrite Nat.add_0_r, from_ptr_at. cbn [bind]. rewrite Nnat.Nat2N.id.
  rewrite firstn_app, firstn_all, Nat.sub_diag, app_nil_r.
  pose proof (digits_ascii digit s Ds (proj1 sub_hex)) as As.
  assert (Ss : strip_underscore_num 0 s = Ok (nounder s)).
  { rewrite <- (app_nil_r s) at 1. rewrite (strip_digits digit 0 s Ds) with (t := []); [now rewrite app_nil_r| |discriminate|reflexivity].
    intros c Hc. apply hex_no_zero. now apply (proj1 sub_hex). }
  destruct W as [->| ->].
  - destruct (list_eq_dec N.eq_dec s s) as [_|X]; [|congruence]. rewrite ascii_mbs by assumption. cbn [bind]. exact Ss.
  - destruct (list_eq_dec N.eq_dec (chr "-" :: s) s) as [X|_]; [apply (f_equal (@List.length N)) in X; cbn in X; lia|].
    rewrite ascii_mbs by (constructor; [reflexivity|assumption]). cbn [bind strip_underscore_num].
    change (chr "-" =? 0) with false. change (chr "-" =? under) with false. cbv iota. now rewrite Ss.
Qed.

Lemma eval_decimal : forall pre s post t n v, digits digit s -> number 10 s n v -> stops post ->
  t_begin t = Some (List.length pre) -> t_len t = N.of_nat (List.length s) ->
  eval_integer (pre ++ s ++ post) t = final v.
Proof.
  intros pre s post t n v Ds Nb S B L. unfold eval_integer. rewrite B, L, from_ptr_at. cbn [bind].
  destruct (digits_head _ _ Ds) as (d & r & Es & Hd).
  assert (R0 : rd (s ++ post) 0 = Ok d) by (rewrite Es; apply (rd_app [] d (r ++ post))). rewrite R0. cbn [bind].
  assert (Eb : (if d =? chr "0" then do m <- rd (s ++ post) 1;
       Ok (if m =? chr "b" then (2%nat, 2) else if m =? chr "o" then (2%nat, 8)
           else if m =? chr "x" then (2%nat, 16) else (0%nat, 10)) else Ok (0%nat, 10)) = Ok (0%nat, 10)).
  { destruct (d =? chr "0"); [|reflexivity].
    assert (X : exists m, rd (s ++ post) 1 = Ok m /\ m <> chr "b" /\ m <> chr "o" /\ m <> chr "x").
    { rewrite Es. destruct r as [|y r].
      - destruct S as [->|(c & p & -> & Hc)].
        + exists 0. split; [reflexivity|]. repeat split; discriminate.
        + exists c. split; [apply (rd_app [d] c p)|]. apply separator_facts in Hc. tauto.
      - exists y. split; [apply (rd_app [d] y (r ++ post))|].
        pose proof (digits_forall _ _ Ds) as F. rewrite Es in F. apply Forall_inv_tail, Forall_inv in F.
        destruct F as [->|F]; [repeat split; discriminate|]. unfold digit in F.
        change (chr "0") with 48 in F. change (chr "9") with 57 in F. change (chr "b") with 98. change (chr "o") with 111. change (chr "x") with 120. lia. }
    destruct X as (m & -> & X1 & X2 & X3). cbn [bind]. apply N.eqb_neq in X1. apply N.eqb_neq in X2. apply N.eqb_neq in X3. now rewrite X1, X2, X3. }
  rewrite Eb. cbn [bind option_map]. pose proof (num_text0 pre s s post (or_introl eq_refl) Ds) as E.
  destruct (list_eq_dec N.eq_dec s s) as [_|X]; [|congruence].
  destruct (token_to_mbs_str _ _) as [num|]; [|discriminate]. cbn [bind] in E |- *. rewrite E. cbn [bind].
  rewrite <- (app_nil_r (nounder s)). rewrite (strtoll_pos 10 s n v []); [apply clamp_lit| | |assumption|lia|now left].
  - apply (digits_mono digit); [apply sub_hex|assumption].
  - eapply Forall_impl; [|apply (digits_forall _ _ Ds)]. intros c [X|X]; [now left|right; now apply digit_vals].
Qed.

Lemma eval_negative : forall pre s post t n v, digits digit s -> number 10 s n v ->
  t_begin t = Some (List.length pre) -> t_len t = N.of_nat (List.length (chr "-" :: s)) ->
  eval_integer (pre ++ (chr "-" :: s) ++ post) t = final (- v).
Proof.
  intros pre s post t n v Ds Nb B L. unfold eval_integer. rewrite B, L, from_ptr_at. cbn [bind].
  change ((chr "-" :: s) ++ post) with (chr "-" :: s ++ post).
  rewrite rd0. cbn [bind]. change (chr "-" =? chr "0") with false. cbv iota. cbn [bind option_map].
  pose proof (num_text0 pre (chr "-" :: s) s post (or_intror eq_refl) Ds) as E.
  destruct (list_eq_dec N.eq_dec (chr "-" :: s) s) as [X|_]; [apply (f_equal (@List.length N)) in X; cbn in X; lia|].
  change (chr "-" :: s ++ post) with ((chr "-" :: s) ++ post).
  destruct (token_to_mbs_str _ _) as [num|]; [|discriminate]. cbn [bind] in E |- *. rewrite E. cbn [bind].
  rewrite <- (app_nil_r (nounder s)). rewrite (strtoll_neg s n v []); [apply clamp_lit|assumption|assumption|now left].
Qed.

Lemma final_cases : forall v, (int64 v -> final v = Ok (Val v)) /\ (~ int64 v -> final v = Ok (Bad ERR_OVERFLOW)).
Proof.
  intro v. unfold final, int64. destruct ((- 2 ^ 63 <=? v) && (v <=? 2 ^ 63 - 1))%Z eqn:E.
  - split; [reflexivity|]. intro H. exfalso. apply H. lia.
  - split; [|reflexivity]. intro H. apply andb_false_iff in E. lia.
Qed.

Lemma integer_value_l : forall pre w post t v, int_value w v -> stops post -> Forall scalar post -> source post ->
  (prefixed w -> ~ under_behind post) ->
  t_begin t = Some (List.length pre) -> t_len t = N.of_nat (List.length w) ->
  (int64 v -> eval_integer (pre ++ w ++ post) t = Ok (Val v)) /\
  (~ int64 v -> eval_integer (pre ++ w ++ post) t = Ok (Bad ERR_OVERFLOW)).
Proof.
  intros pre w post t v V S F NZ U B L.
  assert (E : eval_integer (pre ++ w ++ post) t = final v); [|rewrite E; apply final_cases].
  destruct digit_vals as (V10 & V16 & V8 & V2). destruct sub_hex as (S10 & S8 & S2).
  destruct V as [s n v Ds Nb|s n v Ds Nb|s n v Ds Nb|s n v Ds Nb|s n v Ds Nb].
  - now apply (eval_decimal pre s post t n v).
  - now apply (eval_negative pre s post t n v).
  - apply (eval_prefixed pre s post t (chr "x") 16 hex_digit n v); auto. apply U. exists s. auto.
  - apply (eval_prefixed pre s post t (chr "o") 8 octal_digit n v); auto. apply U. exists s. auto.
  - apply (eval_prefixed pre s post t (chr "b") 2 binary_digit n v); auto. apply U. exists s. auto.
Qed.

Lemma int_value_exists_l : forall w, int_word w -> exists v, int_value w v.
Proof.
  destruct sub_hex as (S10 & S8 & S2).
  assert (E : forall (D : N -> Prop) base s, (forall c, D c -> hex_digit c) -> digits D s -> exists n v, number base s n v).
  { intros D base s HD H. apply number_exists. eapply Forall_impl; [|apply (digits_forall _ _ H)]. intros c [X|X]; auto. }
  intros w [s H|s H|s H|s H|s H].
  - destruct (E digit 10%Z s S10 H) as (n & v & X). exists v. now apply (iv_dec s n).
  - destruct (E digit 10%Z s S10 H) as (n & v & X). exists (- v)%Z. now apply (iv_neg s n).
  - destruct (E hex_digit 16%Z s (fun c x => x) H) as (n & v & X). exists v. now apply (iv_hex s n).
  - destruct (E octal_digit 8%Z s S8 H) as (n & v & X). exists v. now apply (iv_oct s n).
  - destruct (E binary_digit 2%Z s S2 H) as (n & v & X). exists v. now apply (iv_bin s n).
Qed.

Lemma number_unique : forall base s n v, number base s n v -> forall n' v', number base s n' v' -> n' = n /\ v' = v.
Proof.
  intros base s n v H. induction H as [|s n v H IH|c d s n v Hd H IH]; intros n' v' H'.
  - remember [] as e eqn:E. destruct H'; try discriminate. auto.
  - remember (under :: s) as e eqn:E. destruct H' as [|s' n' v' H'|c' d' s' n' v' Hd' H']; [discriminate| |]; uncons E E0 E1.
    + subst s'. now apply IH.
    + subst c'. apply digit_is_value in Hd' as (_ & X & _). now apply hex_not_under in X.
  - remember (c :: s) as e eqn:E. destruct H' as [|s' n' v' H'|c' d' s' n' v' Hd' H']; [discriminate| |]; uncons E E0 E1.
    + subst c. apply digit_is_value in Hd as (_ & X & _). now apply hex_not_under in X.
    + subst s' c'. destruct (IH _ _ H') as (-> & ->). apply digit_is_value in Hd as (X & _). apply digit_is_value in Hd' as (X' & _).
      assert (d = d') by lia. subst d'. auto.
Qed.

(** ** Floats and booleans *)
Lemma on_mbs : forall src t w, on_word src t w -> Forall (fun c => c < 128) w -> token_to_mbs_str src t = Ok w.
Proof. intros src t w H A. unfold token_to_mbs_str. rewrite (on_string _ _ _ H). cbn [bind]. now rewrite ascii_mbs. Qed.

Lemma nounder_app : forall a b, nounder (a ++ b) = nounder a ++ nounder b.
Proof. intros. apply filter_app. Qed.

Lemma nounder_digits : forall b, Forall digit b -> nounder b = b.
Proof.
  intros b F. induction F as [|c b Hc F IH]; [reflexivity|]. cbn [nounder filter].
  assert (E : (c =? under) = false) by (apply N.eqb_neq; intros ->; now apply digit_not_under in Hc). rewrite E. cbn [negb].
  f_equal. exact IH.
Qed.

Lemma float_ascii : forall a b, digits digit a -> Forall digit b -> Forall (fun c => c < 128) (a ++ chr "." :: b).
Proof.
  intros a b Ha Hb. apply Forall_app. split; [now apply (digits_ascii digit _ Ha), sub_hex|].
  constructor; [reflexivity|]. eapply Forall_impl; [|exact Hb]. intros c H. unfold digit in H.
  change (chr "0") with 48 in H. change (chr "9") with 57 in H. lia.
Qed.

Lemma strip_float : forall a b, digits digit a -> Forall digit b ->
  strip_underscore_num (chr ".") (a ++ chr "." :: b) = Ok (nounder (a ++ chr "." :: b)).
Proof.
  intros a b Ha Hb. rewrite nounder_app. apply (strip_digits digit); [assumption| |discriminate|].
  - intros c Hc. split; [|apply hex_no_zero; now apply (proj1 sub_hex)]. intros ->. unfold digit in Hc. cbn in Hc. lia.
  - cbn [strip_underscore_num]. rewrite N.eqb_refl. cbn [nounder filter]. change (negb (chr "." =? under)) with true. cbv iota.
    fold (nounder b). now rewrite nounder_digits.
Qed.

Lemma float_not_special : forall a b w, digits digit a -> (w = a ++ chr "." :: b \/ w = chr "-" :: a ++ chr "." :: b) ->
  text_eqb (u "Infinity") w = false /\ text_eqb (u "-Infinity") w = false /\ text_eqb (u "NaN") w = false.
Proof.
  intros a b w Ha W. assert (I : In (chr ".") w) by (destruct W as [->| ->]; [|right]; apply in_or_app; right; now left).
  rewrite !text_eqb_neq. repeat split; intro E; rewrite <- E in I; cbn in I; repeat (destruct I as [I|I]; [discriminate|]); destruct I.
Qed.

Lemma float_value_l : forall src t w, on_word src t w -> float_word w ->
  eval_float src t = Ok (if text_eqb (u "Infinity") w then F_inf else if text_eqb (u "-Infinity") w then F_neg_inf
    else if text_eqb (u "NaN") w then F_nan else F_strtod (nounder w)).
Proof.
  intros src t w H Fw. unfold eval_float. rewrite !(on_cmp _ _ _ _ H). cbn [bind].
  destruct Fw as [| | |a b Ha Hb Hd|a b Ha Hb Hd]; try reflexivity.
  - destruct (float_not_special a b _ Ha (or_introl eq_refl)) as (-> & -> & ->).
    rewrite (on_mbs _ _ _ H) by (now apply float_ascii). cbn [bind]. now rewrite strip_float.
  - destruct (float_not_special a b _ Ha (or_intror eq_refl)) as (-> & -> & ->).
    rewrite (on_mbs _ _ _ H) by (constructor; [reflexivity|now apply float_ascii]). cbn [bind strip_underscore_num].
    change (chr "-" =? chr ".") with false. change (chr "-" =? under) with false. cbv iota. rewrite strip_float by assumption. reflexivity.
Qed.

Lemma bool_value_l : forall src t w, on_word src t w -> bool_word w -> (eval_bool t = true <-> w = u "true").
Proof.
  intros src t w (pre & post & _ & _ & L) B. unfold eval_bool. rewrite L. destruct B; cbn; [tauto|]. split; discriminate.
Qed.
