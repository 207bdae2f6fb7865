(** Proofs about what is printed for a file. *)
From Coq Require Import List Arith NArith ZArith Bool Lia Ascii String.
From Verif Require Import Base Model_Token Spec_Token Proof_Token5 Model_Utf8 Spec_Utf8 Proof_Utf8 Model_Classify Spec_Classify Proof_Classify2
  Model_Literal Model_Parse Spec_Parse Proof_Parse3 Proof_Parse4 Model_Sem Spec_Types Spec_Sem Spec_Errors Proof_Told Model_Cli Model_Names Model_CGen
  Spec_Run Spec_IR Model_LLVM Model_CFile Model_Pipeline Spec_Pipeline Proof_Pipeline Spec_Printed Model_Errors Proof_Errors.
Import ListNotations.
Open Scope list_scope.
Open Scope N_scope.

(** * Sizes *)

Lemma c_string_short : forall s, (List.length (c_string s) <= List.length s)%nat.
Proof. induction s as [|c s IH]; [reflexivity|]. cbn [c_string]. destruct (c =? 0); cbn [List.length]; lia. Qed.

Lemma encodes_nonempty : forall c bs, encodes c bs -> (1 <= List.length bs)%nat.
Proof. intros c bs E. destruct E; cbn [List.length]; lia. Qed.

Lemma utf8_short : forall t bs, utf8 t bs -> (List.length t <= List.length bs)%nat.
Proof. intros t bs U. induction U as [|c b t bs E U IH]; [reflexivity|]. rewrite app_length. cbn [List.length]. pose proof (encodes_nonempty _ _ E). lia. Qed.

Lemma utf8_scalars : forall t bs, utf8 t bs -> Forall scalar t.
Proof. intros t bs U. induction U as [|c b t bs E U IH]; constructor; [exact (encodes_scalar _ _ E)|exact IH]. Qed.

Lemma encodes_zero : forall bs, encodes 0 bs -> bs = [0].
Proof. intros bs E. inversion E; subst; try reflexivity; lia. Qed.

Lemma utf8_source : forall t bs, utf8 t bs -> ~ In 0 bs -> source t.
Proof.
  intros t bs U. induction U as [|c b t bs E U IH]; intros NI I; [destruct I|]. destruct I as [-> |I].
  - apply encodes_zero in E. subst b. apply NI. now left.
  - apply IH; [intro X; apply NI, in_or_app; now right|exact I].
Qed.

(** * Tokens of a text *)

Definition token_right (body : text) (t : token) : Prop :=
  exists b, t_begin t = Some b /\ (b < List.length body)%nat /\ right_place body b (t_loc t).

Lemma forall2_back : forall A B (P : A -> B -> Prop) l l', Forall2 P l l' -> forall b, In b l' -> exists a, In a l /\ P a b.
Proof.
  intros A B P l l' F. induction F as [|a b l l' Q F IH]; intros b' I; [destruct I|]. destruct I as [<-|I].
  - exists a. split; [now left|exact Q].
  - destruct (IH b' I) as (a' & I' & Q'). exists a'. split; [now right|exact Q'].
Qed.

Lemma tokens_right : forall werror src w raw ts, source src -> fits src -> Forall scalar (behind_bom src) ->
  tokenize werror src = Tokens w raw -> classify_tokens (behind_bom src) raw = Ok ts ->
  Forall (token_right (behind_bom src)) ts /\ Forall (readable (behind_bom src)) ts.
Proof.
  intros werror src w raw ts S F SC T C.
  assert (NE : raw <> [empty_token]) by (intros ->; discriminate C).
  destruct (classifier_total_l _ _ _ _ S F T NE) as (ts' & C' & F2). rewrite C' in C. injection C as <-.
  destruct (tokens_are_l _ _ _ _ S F T) as (_ & ls & L & E1 & E2).
  destruct ls as [|x0 ls]; [now elim NE; apply E1|]. specialize (E2 ltac:(discriminate)).
  assert (A : forall t, In t ts' -> token_right (behind_bom src) t).
  { intros t I. destruct (forall2_back _ _ _ _ _ F2 t I) as (r & Ir & (B & Lo & _)).
    destruct (forall2_in _ _ _ _ _ _ E2 Ir) as (x & Ix & (S1 & _ & _ & S4 & S5)).
    destruct (lexed_in _ _ _ L x Ix) as (pre & v & post & Es & Eb & El & Nv).
    exists (x_begin x). split; [now rewrite B|]. split.
    - rewrite Eb, Es, !app_length. destruct v; [congruence|]. cbn [List.length]. lia.
    - rewrite Lo. split; assumption. }
  split; apply Forall_forall; [exact A|]. intros t I. destruct (A t I) as (b & B & Lb & (RP & _)). split; [|rewrite RP; lia].
  unfold token_to_mbs_str, token_to_string, from_ptr. rewrite B.
  assert (LE : (b <=? List.length (behind_bom src))%nat = true) by (apply Nat.leb_le; lia). rewrite LE. cbn [bind].
  destruct (proj1 (encode_ok (firstn (N.to_nat (t_len t)) (skipn b (behind_bom src))))) as (bs & E & _).
  { rewrite <- (firstn_skipn b (behind_bom src)) in SC. apply Forall_app in SC as (_ & SC).
    rewrite <- (firstn_skipn (N.to_nat (t_len t)) (skipn b (behind_bom src))) in SC. now apply Forall_app in SC as (SC & _). }
  rewrite E. eauto.
Qed.

(** * Notes *)

Lemma parse_right : forall body ts m, Forall (token_right body) ts -> points_into ts m -> right_note body (NoteParse m).
Proof.
  intros body ts m F P. unfold right_note. cbn [note_place]. destruct P as [-> |[-> |(t & I & L & _)]]; [exact Logic.I|exact Logic.I|].
  rewrite L. destruct (proj1 (Forall_forall _ _) F t I) as (b & _ & Lb & RP). exists b. split; [exact Lb|]. split; [exact (proj1 RP)|exact RP].
Qed.

Lemma check_right : forall body ts tree m, Forall (token_right body) ts -> check_points body ts tree m -> right_note body (NoteCheck m).
Proof.
  intros body ts tree [c [l|]] F P; unfold right_note, check_points in *; cbn [note_place sm_loc sm_code] in *; [|exact Logic.I].
  destruct P as (t & I & -> & _). destruct (proj1 (Forall_forall _ _) F t I) as (b & _ & Lb & RP). exists b. split; [exact Lb|]. split; [exact (proj1 RP)|exact RP].
Qed.

Lemma stuck_nonempty : forall s e, stuck s e -> (0 < List.length s)%nat.
Proof. intros s e K. destruct K; cbn [List.length]; lia. Qed.

Lemma lex_right : forall body px s e l, body = px ++ s -> stuck s e -> complains_at body px s e l -> right_note body (NoteLex e l).
Proof.
  intros body px s e l E K C. unfold right_note. cbn [note_place]. pose proof (stuck_nonempty _ _ K) as LS.
  destruct e; cbn [complains_at] in C.
  - exists (List.length px). split; [rewrite E, app_length; lia|]. split; [exact (proj1 C)|exact C].
  - destruct C as (bd & r & -> & _ & LL). exists (List.length (px ++ hash :: chr "{" :: bd)).
    assert (E2 : body = (px ++ hash :: chr "{" :: bd) ++ hash :: chr "{" :: r) by (rewrite E, <- app_assoc; reflexivity).
    split; [rewrite E2, (app_length (px ++ _) _); cbn [List.length]; lia|]. split; [|exact Logic.I].
    rewrite LL. rewrite E2 at 1. rewrite firstn_app, Nat.sub_diag, firstn_all. cbn [firstn]. now rewrite app_nil_r.
  - destruct C as (a & w & Ea & _ & _ & RP). exists (List.length a). split; [rewrite E, Ea, !app_length; lia|]. split; [exact (proj1 RP)|exact RP].
  - destruct C as (a & w & Ea & _ & _ & RP). exists (List.length a). split; [rewrite E, Ea, !app_length; lia|]. split; [exact (proj1 RP)|exact RP].
Qed.

Section Printed.
Variable H : host.
Variable fold : iop -> operand H -> operand H -> option (operand H).
Variable x : outside H.

Lemma c_notes : forall b freed base file s l r, c_backend H x b freed base file s l = Ok r -> r_notes H r = [].
Proof.
  intros b freed base file s l r E. unfold c_backend in E. apply bind_ok in E as (t & _ & E). apply bind_ok in E as (out & _ & E).
  destruct (text_eqb out (u "-") || x_writable H x out); [|discriminate]. now injection E as <-.
Qed.

Lemma llvm_notes : forall b freed base file s l r, llvm_backend H fold x b freed base file s l = Ok r -> r_notes H r = [].
Proof.
  intros b freed base file s l r E. unfold llvm_backend in E. apply bind_ok in E as (m0 & _ & E).
  destruct (will_build_binary b && negb (x_helpers H x m0)); [now injection E as <-|].
  destruct (negb (bd_llvm_no_verify b) && negb (x_verify H x m0)); [now injection E as <-|].
  destruct (optimize_llvm H x b m0) as [m|]; [|now injection E as <-].
  unfold emit_stage_1 in E. destruct (bd_preprocess b).
  { destruct (text_eqb file (u "-")); [now injection E as <-|]. apply bind_ok in E as (out & _ & E).
    destruct (x_print H x out); now injection E as <-. }
  destruct (negb (x_machine H x)); [now injection E as <-|]. apply bind_ok in E as (out & _ & E). cbv zeta in E.
  match type of E with (if ?c then _ else _) = _ => destruct c; [now injection E as <-|] end.
  match type of E with (if ?c then _ else _) = _ => destruct c; [now injection E as <-|] end.
  match type of E with (if ?c then _ else _) = _ => destruct c; [now injection E as <-|] end.
  unfold emit_native_binary in E. apply bind_ok in E as (binary & _ & E).
  destruct (x_directory H x binary); [now injection E as <-|]. apply bind_ok in E as (extra & _ & E). now injection E as <-.
Qed.

(** The body that the model of the messages looks at. *)
Lemma body_is : forall contents src, mbstoc32s (c_string contents) = Decoded src -> body_of contents = behind_bom src.
Proof.
  intros contents src D. unfold body_of. rewrite D. destruct src as [|c src]; [reflexivity|]. cbn [hd tl behind_bom]. reflexivity.
Qed.

Lemma body_text : forall contents src, mbstoc32s (c_string contents) = Decoded src -> text_of contents (behind_bom src).
Proof.
  intros contents src D. apply decode_utf8_l in D. exists (c_string contents). split; [apply c_string_until|].
  destruct src as [|c src]; [right; split; [exact D|discriminate]|]. cbn [behind_bom]. destruct (c =? bom) eqn:B.
  - apply N.eqb_eq in B. subst c. left. exact D.
  - apply N.eqb_neq in B. right. split; [exact D|exact B].
Qed.

Lemma run_notes : forall b freed base file contents r, fits contents ->
  run_pipeline H fold x b freed base file contents = Ok r ->
  exists ts tree, Forall (readable (body_of contents)) ts /\ Forall scalar (body_of contents) /\
    Forall (note_ok (body_of contents) ts tree) (r_notes H r) /\ Forall (right_note (body_of contents)) (r_notes H r).
Proof.
  intros b freed base file contents r FT E. unfold run_pipeline in E.
  destruct (decode_ends_l (c_string contents)) as [(src & U & D)|(t & good & bad & _ & _ & _ & _ & D)]; rewrite D in E.
  2:{ injection E as <-. exists [], []. assert (EB : body_of contents = []) by (unfold body_of; now rewrite D). rewrite EB. cbn [r_notes].
      split; [constructor|]. split; [constructor|]. split; [constructor; [cbn [note_ok]; lia|constructor]|constructor; [exact Logic.I|constructor]]. }
  rewrite (body_is _ _ D).
  assert (ZS : source src) by (apply (utf8_source _ _ U); exact (proj1 (c_string_until contents))).
  assert (FS : fits src).
  { unfold fits in *. pose proof (utf8_short _ _ U). pose proof (c_string_short contents). lia. }
  assert (SC : Forall scalar (behind_bom src)).
  { pose proof (utf8_scalars _ _ U) as A. destruct src as [|c src]; [constructor|]. cbn [behind_bom]. destruct (c =? bom); [now inversion A|exact A]. }
  assert (BM : forall w : bool, Forall (note_ok (behind_bom src) [] []) (if w then [NoteBom] else []) /\ Forall (right_note (behind_bom src)) (if w then [NoteBom] else [])).
  { intros [|]; split; repeat constructor. }
  destruct (tokenize (bd_werror b) src) as [w raw|w e| |] eqn:T; [| |discriminate|discriminate].
  2:{ injection E as <-. cbn [r_notes]. exists [], []. split; [constructor|]. split; [exact SC|].
      destruct (rejected_l _ _ _ _ ZS FS T) as (_ & [(-> & _)|(e0 & l & -> & (px & s & Es & _ & K & CA) & _)]).
      - rewrite app_nil_r. apply BM.
      - pose proof (lex_right _ _ _ _ _ Es K CA) as R. split; apply Forall_app; split; try apply BM; (constructor; [|constructor]); [|exact R].
        cbn [note_ok]. unfold right_note in R. cbn [note_place] in R. destruct R as (k & _ & -> & _). lia. }
  assert (EB : (if w then tl src else src) = behind_bom src).
  { destruct (tokens_are_l _ _ _ _ ZS FS T) as (HB & _). destruct w.
    - destruct (proj1 HB eq_refl) as (r' & ->). cbn [tl behind_bom]. now rewrite N.eqb_refl.
    - destruct src as [|c src]; [reflexivity|]. cbn [behind_bom]. destruct (c =? bom) eqn:B; [|reflexivity].
      apply N.eqb_eq in B. subst c. discriminate (proj2 HB (ex_intro _ src eq_refl)). }
  rewrite EB in E. apply bind_ok in E as (ts & CL & E).
  destruct (tokens_right _ _ _ _ _ ZS FS SC T CL) as (TR & RD).
  assert (MB : forall tree, Forall (note_ok (behind_bom src) ts tree) (if w then [NoteBom] else []) /\ Forall (right_note (behind_bom src)) (if w then [NoteBom] else [])).
  { intro tree. destruct w; split; repeat constructor. }
  destruct (parse_ast_tree ts) as [m [tree|]| |] eqn:P; [| |discriminate|discriminate].
  2:{ injection E as <-. cbn [r_notes]. exists ts, []. split; [exact RD|]. split; [exact SC|].
      apply parsed_of in P. destruct P as (_ & L).
      split; apply Forall_app; (split; [apply (MB [])|]); apply Forall_map; (eapply Forall_impl; [|exact L]); intros a A;
        [exact A|exact (parse_right _ _ _ TR A)]. }
  apply bind_ok in E as (r' & E & E'). injection E' as <-. cbn [with_notes r_notes].
  exists ts, tree. split; [exact RD|]. split; [exact SC|].
  pose proof (parsed_of _ _ _ P) as PO. destruct PO as (-> & _). cbn [map]. rewrite app_nil_r.
  enough (X : Forall (note_ok (behind_bom src) ts tree) (r_notes H r') /\ Forall (right_note (behind_bom src)) (r_notes H r')).
  { split; apply Forall_app; (split; [apply (MB tree)|apply X]). }
  pose proof (checks_point (world_of H x b base) (behind_bom src) _ _ _ P) as CP.
  unfold check_and_generate in E. destruct (empty_tree tree); [injection E as <-; cbn [r_notes]; split; repeat constructor|].
  assert (CH : forall l, Forall (check_points (behind_bom src) ts tree) l ->
    Forall (note_ok (behind_bom src) ts tree) (map NoteCheck (rev l)) /\ Forall (right_note (behind_bom src)) (map NoteCheck (rev l))).
  { intros l F. apply Forall_rev in F. split; apply Forall_map; (eapply Forall_impl; [|exact F]); intros a A; [exact A|exact (check_right _ _ _ _ TR A)]. }
  destruct (validate_ast_tree (world_of H x b base) (behind_bom src) tree) as [s l|msgs|]; [| |discriminate E].
  - apply bind_ok in E as (r0 & E & E'). injection E' as <-. cbn [with_notes r_notes].
    assert (NN : r_notes H r0 = []) by (destruct (bd_c_backend b); [exact (c_notes _ _ _ _ _ _ _ E)|exact (llvm_notes _ _ _ _ _ _ _ E)]).
    rewrite NN, app_nil_r. exact (CH _ CP).
  - injection E as <-. cbn [r_notes]. exact (CH _ CP).
Qed.

Lemma main_notes : forall color argv c e notes b f, skull_main H fold x color argv = Ok (c, e, notes) ->
  cli_main color argv = Go b -> bd_filename b = Some f ->
  (forall contents, x_read H x f = Some contents -> fits contents) ->
  (bd_quiet b = true -> notes = []) /\
  exists body ts tree,
    (forall contents, x_read H x f = Some contents -> text_of contents body \/ forall t, ~ text_of contents t) /\
    body_of match x_read H x f with Some contents => contents | None => [] end = body /\
    Forall (readable body) ts /\ Forall scalar body /\ Forall (note_ok body ts tree) notes /\ Forall (right_note body) notes.
Proof.
  intros color argv c e notes b f E M Fn FT.
  destruct (main_inv _ _ _ _ _ _ _ _ E) as [(X & _)|(b' & f' & r & M' & Fn' & C & _ & _ & ->)]; [congruence|].
  rewrite M in M'. injection M' as <-. rewrite Fn in Fn'. injection Fn' as <-.
  split; [intros ->; reflexivity|].
  assert (W : exists ts tree,
    (forall contents, x_read H x f = Some contents ->
       text_of contents (body_of match x_read H x f with Some contents => contents | None => [] end) \/ forall t, ~ text_of contents t) /\
    Forall (readable (body_of match x_read H x f with Some contents => contents | None => [] end)) ts /\
    Forall scalar (body_of match x_read H x f with Some contents => contents | None => [] end) /\
    Forall (note_ok (body_of match x_read H x f with Some contents => contents | None => [] end) ts tree) (r_notes H r) /\
    Forall (right_note (body_of match x_read H x f with Some contents => contents | None => [] end)) (r_notes H r)).
  { unfold compile_file in C. 
    assert (TX : forall contents, text_of contents (body_of contents) \/ forall t, ~ text_of contents t).
    { intro contents. destruct (decode_ends_l (c_string contents)) as [(src & U & D)|(t & good & bad & _ & _ & _ & NO & D)].
      - left. rewrite (body_is _ _ D). exact (body_text _ _ D).
      - right. intros body (t' & (NZ & UN) & UT).
        assert (ET : t' = c_string contents).
        { destruct (c_string_until contents) as (NZ2 & UN2). destruct UN as [-> |(r1 & E1)], UN2 as [E2|(r2 & E2)].
          - now symmetry.
          - exfalso. apply NZ. rewrite E2. apply in_or_app. right. now left.
          - exfalso. apply NZ2. rewrite <- E2, E1. apply in_or_app. right. now left.
          - pose proof (eq_trans (eq_sym E1) E2) as E3. revert NZ NZ2 E3. generalize (c_string contents) as q. clear. intros q NZ NZ2 E2.
            revert q NZ2 E2. induction t' as [|a t' IH]; intros q NZ2 E2; destruct q as [|d q]; try reflexivity; cbn [app] in E2.
            + injection E2 as <- _. now elim NZ2; left.
            + injection E2 as -> _. now elim NZ; left.
            + injection E2 as <- E2. f_equal. apply IH; [intro X; apply NZ; now right|intro X; apply NZ2; now right|exact E2]. }
        subst t'. destruct UT as [UT|(UT & _)]; exact (NO _ UT). }
    assert (Z : body_of [] = []) by reflexivity.
    destruct (negb (name_accepted f)).
    { injection C as <-. cbn [r_notes]. exists [], []. split; [intros contents R; rewrite R; apply TX|]. split; [constructor|].
      split; [|split; constructor].
      unfold body_of. destruct (x_read H x f) as [ct|]; [|constructor].
      destruct (decode_ends_l (c_string ct)) as [(src & U & D)|(t & good & bad & _ & _ & _ & NO & D)]; rewrite D; [|constructor].
      pose proof (utf8_scalars _ _ U) as A. destruct src as [|c0 src]; [constructor|]. cbn [hd tl]. destruct (c0 =? 65279); [now inversion A|exact A]. }
    destruct (x_read H x f) as [contents|] eqn:RD.
    2:{ injection C as <-. rewrite Z. exists [], []. split; [intros ? Q; discriminate Q|]. repeat split; constructor. }
    destruct contents as [|c0 contents].
    { injection C as <-. rewrite Z. cbn [r_notes]. exists [], []. split; [intros ct Q; injection Q as <-; apply (TX [])|].
      split; [constructor|]. split; [constructor|]. split; repeat constructor. }
    destruct (run_notes _ _ _ _ _ _ (FT _ eq_refl) C) as (ts & tree & A1 & A2 & A3 & A4).
    exists ts, tree. split; [intros ct Q; injection Q as <-; apply TX|]. now repeat split. }
  destruct W as (ts & tree & W1 & W2 & W3 & W4 & W5).
  exists (body_of match x_read H x f with Some contents => contents | None => [] end), ts, tree.
  split; [exact W1|]. split; [reflexivity|]. split; [exact W2|]. split; [exact W3|].
  destruct (bd_quiet b); [split; constructor|split; assumption].
Qed.

Lemma printed_l : forall why color argv c e notes b f, skull_main H fold x color argv = Ok (c, e, notes) ->
  cli_main color argv = Go b -> bd_filename b = Some f ->
  (forall contents, x_read H x f = Some contents -> fits contents) ->
  (bd_quiet b = true -> notes = []) /\
  exists body lines,
    (forall contents, x_read H x f = Some contents -> text_of contents body \/ forall t, ~ text_of contents t) /\
    Forall (right_note body) notes /\
    skull_errors H fold x why color argv = Ok (List.concat lines) /\
    Forall2 (fun n t => printed (bd_color b) f body why n t \/
                        n = at_the_end /\ framed (bd_color b) f n (u "invalid expression near ""%s""") t) notes lines.
Proof.
  intros why color argv c e notes b f E M Fn FT.
  destruct (main_notes _ _ _ _ _ _ _ E M Fn FT) as (Q & body & ts & tree & TX & EB & RD & SC & OK & RN). split; [exact Q|].
  destruct (notes_out (bd_color b) f body why ts tree RD SC notes OK) as (lines & W & F2).
  exists body, lines. split; [exact TX|]. split; [exact RN|]. split; [|exact F2].
  unfold skull_errors. rewrite E. cbn [bind]. rewrite M, Fn, EB. exact W.
Qed.
End Printed.
