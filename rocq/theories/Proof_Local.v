(** Reading source files in locales. *)
From Coq Require Import List Arith NArith Bool Lia Ascii String.
From Verif Require Import Base Model_Utf8 Spec_Utf8 Proof_Utf8 Model_Local Spec_Local.
Import ListNotations.
Open Scope list_scope.
Open Scope N_scope.

Lemma skipn_app_len : forall (a b : text), skipn (List.length a) (a ++ b) = b.
Proof. intros. rewrite skipn_app, skipn_all, Nat.sub_diag. reflexivity. Qed.

Lemma loop_utf8 : forall l, utf8_locale l -> forall f out str, mbs_loop_in l f out str = mbs_loop f out str.
Proof.
  intros l U f. induction f as [|f IH]; intros out str; [reflexivity|]. cbn [mbs_loop_in mbs_loop]. destruct str as [|a r]; [reflexivity|].
  destruct (U (a :: r)) as (U1 & U2); [discriminate|]. destruct (mbrtoc32 (a :: r)) as [(c, rest)|] eqn:M.
  - apply mbrtoc32_some in M as (bs & E & EN & NE). rewrite (U1 c bs rest EN E). destruct bs as [|b bs]; [contradiction|]. cbn [List.length].
    replace (skipn (S (List.length bs)) (a :: r)) with rest; [apply IH|]. rewrite E. symmetry. apply (skipn_app_len (b :: bs)).
  - rewrite U2; [reflexivity|]. intros c bs rest EN E. rewrite E, (mbrtoc32_encodes _ _ _ EN) in M. discriminate M.
Qed.
Lemma decode_utf8_locale : forall l, utf8_locale l -> forall str, mbstoc32s_in l str = mbstoc32s str.
Proof. intros l U str. apply loop_utf8. exact U. Qed.

Lemma setup_unset : forall S, unset S -> setup_locale S = S (u "C.UTF-8").
Proof.
  intros S [E|(l & E & N0)]; unfold setup_locale; rewrite E; [reflexivity|]. rewrite N0, text_eqb_refl. reflexivity.
Qed.
Lemma setup_set : forall S l, S [] = Some l -> lc_name l <> u "C" -> setup_locale S = Some l.
Proof.
  intros S l E N0. unfold setup_locale. rewrite E. assert (T : text_eqb (u "C") (lc_name l) = false) by (apply text_eqb_neq; congruence). rewrite T. exact E.
Qed.
Lemma setup_exits : forall S, setup_locale S = None <-> unset S /\ S (u "C.UTF-8") = None.
Proof.
  intro S. split.
  - intro E. destruct (S []) as [l|] eqn:D.
    + destruct (text_eq_dec (lc_name l) (u "C")) as [N0|N0]; [|rewrite (setup_set _ _ D N0) in E; discriminate E].
      assert (U : unset S) by (right; eauto). rewrite (setup_unset _ U) in E. auto.
    + assert (U : unset S) by now left. rewrite (setup_unset _ U) in E. auto.
  - intros (U & E). now rewrite setup_unset.
Qed.
Lemma setup_utf8 : forall S l, honest S -> unset S \/ wants_utf8 S -> setup_locale S = Some l -> utf8_locale l.
Proof.
  intros S l H [U|(l0 & E & U)] L; [rewrite (setup_unset _ U) in L; auto|].
  destruct (text_eq_dec (lc_name l0) (u "C")) as [N0|N0].
  - rewrite setup_unset in L; [auto|right; eauto].
  - rewrite (setup_set _ _ E N0) in L. injection L as <-. exact U.
Qed.
Lemma read_utf8 : forall S str, honest S -> unset S \/ wants_utf8 S ->
  (exists t, utf8 t str /\ read_source S str = Some (Decoded t)) \/
  ((forall t, ~ utf8 t str) /\ exists i, read_source S str = Some (IllegalAt i)) \/
  (S (u "C.UTF-8") = None /\ unset S /\ read_source S str = None).
Proof.
  intros S str H E. unfold read_source. destruct (setup_locale S) as [l|] eqn:L.
  - rewrite (decode_utf8_locale l (setup_utf8 _ _ H E L)). destruct (decode_ends_l str) as [(t & U & D)|(t & g & b & _ & _ & _ & NU & D)].
    + left. exists t. rewrite D. auto.
    + right. left. split; [exact NU|]. rewrite D. eauto.
  - right. right. apply setup_exits in L as (U & L). auto.
Qed.

Lemma loop_ascii : forall l, ascii_locale l -> forall str f out, Forall (fun c => 0 < c < 128) str -> (List.length str < f)%nat ->
  mbs_loop_in l f out str = Decoded (rev out ++ str).
Proof.
  intros l A str. induction str as [|c r IH]; intros f out F L; (destruct f as [|f]; [cbn in L; lia|]); cbn [mbs_loop_in].
  - now rewrite app_nil_r.
  - apply Forall_cons_iff in F as (C & F). rewrite (A c r C). change (skipn 1 (c :: r)) with r. cbn [List.length] in L. rewrite IH by (auto; lia). cbn [rev]. now rewrite <- app_assoc.
Qed.
Lemma read_ascii : forall S str, (forall n l, S n = Some l -> ascii_locale l) -> Forall (fun c => 0 < c < 128) str ->
  read_source S str = Some (Decoded str) \/ S (u "C.UTF-8") = None /\ unset S /\ read_source S str = None.
Proof.
  intros S str A F. unfold read_source. destruct (setup_locale S) as [l|] eqn:L.
  - left. unfold mbstoc32s_in. rewrite loop_ascii; [reflexivity| |exact F|lia]. unfold setup_locale in L. eapply A. exact L.
  - right. apply setup_exits in L as (U & L). auto.
Qed.
