(** Proofs about the texts of the messages. *)
From Coq Require Import List Arith NArith ZArith Bool Lia Ascii String.
From Verif Require Import Base Model_Token Model_Utf8 Spec_Utf8 Proof_Utf8 Model_Classify Model_Literal Model_Parse Spec_Parse
  Model_Sem Spec_Types Spec_Sem Proof_Sem2 Spec_Errors Proof_Told Model_Cli Model_CGen Spec_Run Spec_IR Model_Pipeline Spec_Printed Model_Errors.
Import ListNotations.
Open Scope list_scope.
Open Scope N_scope.

(** * Numbers *)

Definition number_of (t : text) (a : N) : N := fold_left (fun a c => 10 * a + (c - chr "0")) t a.

Lemma digit_char_ok : forall d, d < 10 -> chr "0" <= digit_char d <= chr "9" /\ digit_char d - chr "0" = d.
Proof. intros d L. unfold digit_char. apply N.ltb_lt in L as L'. rewrite L'. change (chr "0") with 48. change (chr "9") with 57. lia. Qed.

Lemma digits_loop_ok : forall f n acc, n < 2 ^ N.of_nat f -> Forall (fun c => chr "0" <= c <= chr "9") acc ->
  let t := digits_loop f 10 n acc in
  (f <> O -> exists pre, t = pre ++ acc /\ pre <> [] /\ Forall (fun c => chr "0" <= c <= chr "9") pre /\
     (hd 0 pre = chr "0" -> pre = [chr "0"]) /\ forall a, number_of pre a = a * 10 ^ N.of_nat (List.length pre) + n).
Proof.
  induction f as [|f IH]; intros n acc L F t NF; [congruence|]. subst t. cbn [digits_loop].
  assert (M : n mod 10 < 10) by (apply N.mod_lt; lia). destruct (digit_char_ok _ M) as (D1 & D2).
  pose proof (N.div_mod n 10 ltac:(lia)) as DM.
  destruct (n / 10 =? 0) eqn:Z.
  - apply N.eqb_eq in Z. exists [digit_char (n mod 10)]. split; [reflexivity|]. split; [discriminate|].
    split; [constructor; [exact D1|constructor]|]. split; [cbn [hd]; intros ->; reflexivity|].
    intro a. cbn [number_of fold_left List.length]. unfold number_of. cbn [fold_left]. rewrite D2. change (10 ^ N.of_nat 1) with 10. lia.
  - apply N.eqb_neq in Z.
    assert (L2 : n / 10 < 2 ^ N.of_nat f).
    { rewrite Nat2N.inj_succ, N.pow_succ_r' in L. apply N.div_lt_upper_bound; lia. }
    assert (NF' : f <> O). { intros ->. cbn in L2. lia. }
    assert (FA : Forall (fun c => chr "0" <= c <= chr "9") (digit_char (n mod 10) :: acc)) by (constructor; assumption).
    destruct (IH (n / 10) (digit_char (n mod 10) :: acc) L2 FA NF') as (pre & E & NE & FP & HZ & V).
    exists (pre ++ [digit_char (n mod 10)]). split; [rewrite E, <- app_assoc; reflexivity|].
    split; [destruct pre; discriminate|]. split; [apply Forall_app; split; [exact FP|constructor; [exact D1|constructor]]|].
    split.
    + intro HD. assert (HD' : hd 0 pre = chr "0") by (destruct pre; [congruence|exact HD]). apply HZ in HD'. subst pre.
      exfalso. specialize (V 0). unfold number_of in V. cbn [fold_left] in V. change (chr "0") with 48 in V. lia.
    + intro a. unfold number_of in *. rewrite fold_left_app, V. cbn [fold_left]. rewrite D2, app_length. cbn [List.length].
      rewrite Nat2N.inj_add. change (N.of_nat 1) with 1. rewrite N.pow_add_r, N.pow_1_r. lia.
Qed.

Lemma digits_decimal : forall n, decimal n (digits 10 n).
Proof.
  intro n. unfold digits.
  assert (L : n < 2 ^ N.of_nat (S (N.to_nat (N.log2 n)))).
  { rewrite Nat2N.inj_succ, N2Nat.id. destruct (N.eq_dec n 0) as [-> |NZ]; [cbn; lia|]. apply N.log2_spec. lia. }
  destruct (digits_loop_ok _ n [] L (Forall_nil _) ltac:(discriminate)) as (pre & E & NE & F & Z & V).
  rewrite app_nil_r in E. rewrite E. split; [exact NE|]. split; [exact F|]. split; [exact Z|]. specialize (V 0). exact V.
Qed.

(** * The frame of a message *)

Lemma spelled_name : forall t, type_name t = spelled t.
Proof. reflexivity. Qed.

Lemma prefix_text : forall color fatal file,
  uvsnprintf (prefix_format color fatal) [AText file] = Ok (file ++ u ": " ++ kind_text color (negb fatal) ++ u ": ").
Proof. intros [|] [|] file; reflexivity. Qed.

Lemma fmt_intro : forall color file src fatal c p l texts pl s,
  message_texts src (p :: l) = Ok texts -> get_location_str p = Ok pl -> get_error_msg texts c = Ok s ->
  fmt_message color file src fatal c (p :: l) = Ok (file ++ u ": " ++ kind_text color (negb fatal) ++ u ": " ++ pl ++ s ++ [10]).
Proof.
  intros color file src fatal c p l texts pl s T L M. unfold fmt_message. rewrite T. cbn [bind]. rewrite prefix_text. cbn [bind].
  rewrite L. cbn [bind]. rewrite M. cbn [bind].
  assert (E : forall a b d, uvsnprintf (u "%s%s%s" ++ [10]) [AText a; AText b; AText d] = Ok (a ++ b ++ d ++ [10])) by reflexivity.
  rewrite E. f_equal. rewrite <- !app_assoc. reflexivity.
Qed.

Lemma loc_placed : forall p l, (match a_tok p with Some t => Some (t_loc t) | None => a_loc p end) = l ->
  (forall x, l = Some x -> l_line x <> 0) -> exists pl, get_location_str p = Ok pl /\ placed l pl.
Proof.
  intros p l E NZ. unfold get_location_str. rewrite E. destruct l as [l|]; [|exists []; now split].
  assert (Z : (l_line l =? 0) = false) by (apply N.eqb_neq; now apply NZ). rewrite Z.
  exists (u "line " ++ digits 10 (l_line l) ++ u " column " ++ digits 10 (l_column l) ++ u ": "). split; [reflexivity|].
  exists (digits 10 (l_line l)), (digits 10 (l_column l)). split; [apply digits_decimal|]. split; [apply digits_decimal|reflexivity].
Qed.

(** * One message *)

(** The tokens can be written and have a line. *)
Definition readable (src : text) (t : token) : Prop :=
  (exists x, token_to_mbs_str src t = Ok x) /\ l_line (t_loc t) <> 0.

Definition note_ok (src : text) (ts : list token) (tree : list node) (n : note) : Prop :=
  match n with
  | NoteDecode i => i <> 0
  | NoteLex _ l => l_line l <> 0
  | NoteParse m => points_into ts m
  | NoteCheck m => check_points src ts tree m
  | _ => True
  end.

Definition comes_out (color : bool) (file src why : text) (n : note) : Prop :=
  exists f c parts t, note_message src why n = Ok (f, c, parts) /\ fmt_message color file src f c parts = Ok t /\
    (printed color file src why n t \/ n = at_the_end /\ framed color file n (u "invalid expression near ""%s""") t).

(** To show for each message. *)
Lemma out_intro : forall color file src why n fatal c p l texts s,
  note_message src why n = Ok (fatal, c, p :: l) ->
  message_texts src (p :: l) = Ok texts -> get_error_msg texts c = Ok s ->
  fatal = negb (is_warning n) ->
  (match a_tok p with Some t => Some (t_loc t) | None => a_loc p end) = note_place n ->
  (forall x, note_place n = Some x -> l_line x <> 0) ->
  note_says src why n s \/ n = at_the_end /\ s = u "invalid expression near ""%s""" ->
  comes_out color file src why n.
Proof.
  intros color file src why n fatal c p l texts s E T M FA PL NZ SA.
  destruct (loc_placed p _ PL NZ) as (pl & GL & PP).
  exists fatal, c, (p :: l), (file ++ u ": " ++ kind_text color (negb fatal) ++ u ": " ++ pl ++ s ++ [10]).
  split; [exact E|]. split; [exact (fmt_intro color file src fatal c p l texts pl s T GL M)|].
  subst fatal. rewrite negb_involutive. assert (FR : framed color file n s (file ++ u ": " ++ kind_text color (is_warning n) ++ u ": " ++ pl ++ s ++ [10])) by (exists pl; split; [exact PP|reflexivity]).
  destruct SA as [SA|(-> & ->)]; [left; exists s; split; [exact SA|exact FR]|right; split; [reflexivity|exact FR]].
Qed.

Lemma token_texts : forall src t x, token_to_mbs_str src t = Ok x -> message_texts src [p_token (Some t); zero_part] = Ok [x].
Proof. intros src t x E. cbn [message_texts message_stringify p_token a_var a_type a_str32 a_i a_tok a_real a_str]. rewrite N.eqb_refl. cbn [negb]. rewrite E. reflexivity. Qed.
Lemma escape_texts : forall src l w x, c32stombs w = Some x -> message_texts src [p_str32 l w; zero_part] = Ok [x].
Proof. intros src l w x E. cbn [message_texts message_stringify p_str32 a_var a_type a_str32 a_i a_tok a_real a_str]. rewrite E. reflexivity. Qed.

Section Note.
Variables (color : bool) (file src why : text) (ts : list token) (tree : list node).
Hypothesis RD : Forall (readable src) ts.
Hypothesis SC : Forall scalar src.

Lemma rd_token : forall t, In t ts -> exists x, token_to_mbs_str src t = Ok x /\ spells src t x /\ l_line (t_loc t) <> 0.
Proof.
  intros t I. pose proof (proj1 (Forall_forall _ _) RD t I) as ((x & E) & L). exists x.
  split; [exact E|]. split; [exact (mbs_spells _ _ _ E)|exact L].
Qed.

Lemma parse_out : forall m, points_into ts m -> comes_out color file src why (NoteParse m).
Proof.
  intros m [-> |[-> |(t & I & L & T)]].
  - eapply out_intro; [reflexivity|reflexivity|reflexivity|reflexivity|reflexivity|intros x X; discriminate X|left; reflexivity].
  - eapply out_intro; [reflexivity|reflexivity|reflexivity|reflexivity|reflexivity|intros x X; discriminate X|right; split; reflexivity].
  - destruct (rd_token t I) as (x & E & SP & LN). destruct m as [c ml]. cbn [m_code m_loc] in *. subst ml.
    assert (NZ : forall y, note_place (NoteParse (mkmsg c (Some (t_loc t)))) = Some y -> l_line y <> 0) by (intros y Y; injection Y as <-; exact LN).
    destruct c; cbn [tells] in T; subst; try contradiction;
      try (eapply out_intro; [reflexivity|reflexivity|reflexivity|reflexivity|reflexivity|exact NZ|left; reflexivity]);
      (eapply out_intro; [reflexivity|exact (token_texts _ _ _ E)|reflexivity|reflexivity|reflexivity|exact NZ|left; exists x; split; [exact SP|reflexivity]]).
Qed.

Lemma check_out : forall m, check_points src ts tree m -> comes_out color file src why (NoteCheck m).
Proof.
  intros [c [l|]] CP; unfold check_points in CP; cbn [sm_loc sm_code] in CP.
  - destruct CP as (t & I & -> & F). destruct (rd_token t I) as (x & E & SP & LN).
    assert (NZ : forall y, note_place (NoteCheck (mksmsg c (Some (t_loc t)))) = Some y -> l_line y <> 0) by (intros y Y; injection Y as <-; exact LN).
    destruct c; cbn [fits_token] in F; try contradiction;
      try (eapply out_intro; [reflexivity|reflexivity|reflexivity|reflexivity|reflexivity|exact NZ|left; reflexivity]);
      try (subst; eapply out_intro; [reflexivity|exact (token_texts _ _ _ E)|reflexivity|reflexivity|reflexivity|exact NZ|left; exists x; split; [exact SP|reflexivity]]).
    + (* NO_VOID_ASSIGN *)
      destruct F as (q & HQ & IQ). destruct (rd_token q IQ) as (z & EZ & SZ & _). destruct t0 as [|q' r]; [discriminate HQ|]. injection HQ as ->.
      eapply out_intro; [cbn [note_message check_message sm_code sm_loc]; rewrite EZ; reflexivity|reflexivity|reflexivity|reflexivity|reflexivity|exact NZ|].
      left. exists q. split; [reflexivity|]. exists z. split; [exact SZ|reflexivity].
    + (* TYPE_NOT_FOUND *)
      destruct t0 as [|q r]; [discriminate F|]. injection F as ->.
      eapply out_intro; [reflexivity|exact (token_texts _ _ _ E)|reflexivity|reflexivity|reflexivity|exact NZ|].
      left. exists t. split; [reflexivity|]. exists x. split; [exact SP|reflexivity].
    + (* NO_REDEFINE_X_AS_Y *)
      destruct old, new; (eapply out_intro; [reflexivity|reflexivity|reflexivity|reflexivity|reflexivity|exact NZ|left; reflexivity]).
    + (* LITERAL *)
      destruct F as (-> & F). destruct e; cbn iota in F;
        try (eapply out_intro; [reflexivity|reflexivity|reflexivity|reflexivity|reflexivity|exact NZ|left; reflexivity]);
        try (eapply out_intro; [reflexivity|exact (token_texts _ _ _ E)|reflexivity|reflexivity|reflexivity|exact NZ|left; exists x; split; [exact SP|reflexivity]]).
      destruct F as (a & b & EW). assert (SW : Forall scalar what). { rewrite EW in SC. apply Forall_app in SC as (_ & SC'). now apply Forall_app in SC' as (SC' & _). }
      destruct (proj1 (encode_ok what) SW) as (z & EZ & UZ).
      eapply out_intro; [reflexivity|exact (escape_texts _ _ _ _ EZ)|reflexivity|reflexivity|reflexivity|exact NZ|left; exists z; split; [exact UZ|reflexivity]].
  - assert (NZ : forall y, note_place (NoteCheck (mksmsg c None)) = Some y -> l_line y <> 0) by (intros y Y; discriminate Y).
    destruct c; cbn [fits_program] in CP; try contradiction;
      try (eapply out_intro; [reflexivity|reflexivity|reflexivity|reflexivity|reflexivity|exact NZ|left; reflexivity]).
    apply out_intro with (fatal := true) (c := ERR_LOAD_MODULE) (p := p_real None name) (l := [p_str None why; zero_part]) (texts := [name; why])
      (s := u "could not load module """ ++ name ++ u """: " ++ why ++ []);
      [reflexivity|reflexivity|reflexivity|reflexivity|reflexivity|exact NZ|]. left. rewrite app_nil_r. reflexivity.
Qed.

Lemma note_out : forall n, note_ok src ts tree n -> comes_out color file src why n.
Proof.
  intros [i| |e l|m|m|[|]] K; cbn [note_ok] in K.
  - apply out_intro with (fatal := true) (c := ERR_ILLEGAL_SEQ_AT) (p := p_number i) (l := [zero_part]) (texts := [digits 10 (i - 1)])
      (s := u "illegal UTF8 sequence at character offset " ++ digits 10 (i - 1) ++ []);
      [reflexivity| |reflexivity|reflexivity|reflexivity|intros x X; discriminate X|].
    + cbn [message_texts message_stringify p_number a_var a_type a_str32 a_i a_tok a_real a_str].
      apply N.eqb_neq in K as K'. rewrite K'. reflexivity.
    + left. rewrite app_nil_r. exists (i - 1), (digits 10 (i - 1)). split; [lia|]. split; [apply digits_decimal|reflexivity].
  - eapply out_intro; [reflexivity|reflexivity|reflexivity|reflexivity|reflexivity|intros x X; discriminate X|left; reflexivity].
  - destruct e; (eapply out_intro; [reflexivity|reflexivity|reflexivity|reflexivity|reflexivity|intros x X; injection X as <-; exact K|left; reflexivity]).
  - exact (parse_out m K).
  - exact (check_out m K).
  - eapply out_intro; [reflexivity|reflexivity|reflexivity|reflexivity|reflexivity|intros x X; discriminate X|left; reflexivity].
  - eapply out_intro; [reflexivity|reflexivity|reflexivity|reflexivity|reflexivity|intros x X; discriminate X|left; reflexivity].
Qed.

Lemma notes_out : forall l, Forall (note_ok src ts tree) l -> exists lines,
  write_errors color file src why l = Ok (List.concat lines) /\
  Forall2 (fun n t => printed color file src why n t \/ n = at_the_end /\ framed color file n (u "invalid expression near ""%s""") t) l lines.
Proof.
  induction l as [|n l IH]; intro F; [exists []; split; [reflexivity|constructor]|].
  apply Forall_cons_iff in F as (K & F). destruct (IH F) as (lines & E & F2). destruct (note_out n K) as (f & c & parts & t & E1 & E2 & P).
  exists (t :: lines). split; [|now constructor]. cbn [write_errors]. rewrite E1. cbn [bind]. rewrite E2. cbn [bind]. rewrite E. reflexivity.
Qed.
End Note.
