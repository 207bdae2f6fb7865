(** Proofs about the driver. *)
From Coq Require Import List Arith NArith ZArith Bool Lia Ascii String.
From Verif Require Import Base Model_Token Model_Utf8 Spec_Utf8 Proof_Utf8 Model_Classify Model_Literal Model_Parse Spec_Parse
  Model_Sem Spec_Sem Model_Names Spec_Names Proof_Names Model_Cli Spec_Run Spec_IR Model_LLVM Model_CGen Model_CFile
  Model_Pipeline Spec_Pipeline.
Import ListNotations.
Open Scope list_scope.
Open Scope N_scope.

Lemma bind_ok : forall A B (r : res A) (k : A -> res B) b, bind r k = Ok b -> exists a, r = Ok a /\ k a = Ok b.
Proof. intros A B [a|] k b E; cbn [bind] in E; [eauto|discriminate]. Qed.

Lemma c_string_until : forall s, until_nul s (c_string s).
Proof.
  induction s as [|c s (I & E)]; [split; [intros []|now left]|]. cbn [c_string]. destruct (c =? 0) eqn:Ec.
  - apply N.eqb_eq in Ec. subst c. split; [intros []|]. right. now exists s.
  - apply N.eqb_neq in Ec. split; [intros [X|X]; [now apply Ec|now apply I]|].
    destruct E as [E|(r & E)]; [left; now rewrite <- E|right; exists r; cbn [app]; now rewrite <- E].
Qed.

Section Pipeline.
Variable H : host.
Variable fold : iop -> operand H -> operand H -> option (operand H).
Variable x : outside H.

(** What a back end gives. *)
Definition fair (b : build_data) (base file : text) (s : sst) (l : list tnode) (r : run H) : Prop :=
  (forall f o, In (Wrote H f o) (r_events H r) -> made_from H fold x b base s l o) /\
  (r_failed H r = false -> nz base -> nz file -> file <> u "-" -> delivered H fold x b base file s l (r_events H r)).

Lemma named_new : forall b ext file out, nz file -> nz ext ->
  get_new_filename (bd_out_file b) (bd_preprocess b) (bd_c_backend b) file ext = Ok out ->
  bd_preprocess b = true \/ bd_c_backend b = true -> named b (bd_preprocess b) file ext out.
Proof.
  intros b ext file out Nf Ne E P. unfold get_new_filename in E. unfold named.
  destruct (bd_out_file b) as [o|].
  - assert (X : bd_preprocess b || bd_c_backend b = true) by (destruct P as [-> | ->]; [reflexivity|apply orb_true_r]).
    rewrite X in E. now injection E as <-.
  - destruct (bd_preprocess b); [now injection E as <-|].
    destruct (gen_total file ext Nf Ne) as (o & E' & S'). rewrite E' in E. now injection E as <-.
Qed.

Lemma c_fair : forall b freed base file s l r, bd_c_backend b = true ->
  c_backend H x b freed base file s l = Ok r -> fair b base file s l r.
Proof.
  intros b freed base file s l r C E. unfold c_backend in E.
  apply bind_ok in E as (t & Et & E). apply bind_ok in E as (out & Eo & E).
  destruct (text_eqb out (u "-") || x_writable H x out); [|discriminate]. injection E as <-.
  assert (M : made_from H fold x b base s l (CText H t)) by (split; assumption).
  split.
  - cbn [r_events]. intros f o [X|[]]. injection X as _ <-. exact M.
  - intros _ Nb Nf _. cbn [r_events]. apply dl_c; [exact C| |exact M].
    apply named_new; [exact Nf| |exact Eo|now right]. repeat constructor; discriminate.
Qed.

Lemma strrchr_split : forall s c i, strrchr s c = Some i ->
  exists p q, s = p ++ c :: q /\ ~ In c q /\ List.length p = i.
Proof.
  induction s as [|d s IH]; intros c i E; cbn [strrchr] in E; [discriminate|].
  destruct (strrchr s c) as [j|] eqn:Es.
  - injection E as <-. destruct (IH _ _ Es) as (p & q & -> & Nq & <-). exists (d :: p), q. repeat split; auto.
  - destruct (d =? c) eqn:Ed; [|discriminate]. injection E as <-. apply N.eqb_eq in Ed. subst d.
    exists [], s. repeat split; auto. clear IH. revert Es.
    induction s as [|e s IH]; cbn [strrchr]; [intros _ []|]. intro E.
    destruct (strrchr s c); [discriminate|]. destruct (e =? c) eqn:Ee; [discriminate|]. apply N.eqb_neq in Ee.
    intros [X|X]; [now apply Ee|now apply IH].
Qed.

Lemma binary_split : forall base binary, nz base -> get_binary_name base = Ok binary ->
  exists ext, base = binary ++ chr "." :: ext /\ ~ In (chr ".") ext.
Proof.
  intros base binary Nb E. destruct (strrchr base dot) as [i|] eqn:Ei.
  - destruct (strrchr_split _ _ _ Ei) as (p & q & -> & Nq & <-).
    rewrite binary_name_ok in E; [|apply Forall_app in Nb as (X & _); exact X|exact Nq].
    injection E as <-. now exists q.
  - unfold get_binary_name in E. rewrite Ei in E. discriminate.
Qed.

Lemma optimized : forall b m0 m s l, gen_module H fold (s_syms s) (bd_debug b) l = Ok m0 ->
  optimize_llvm H x b m0 = Some m -> has_module H fold x b s l m.
Proof.
  intros b m0 m s l G E. exists m0. split; [exact G|]. unfold optimize_llvm in E.
  destruct (bd_optimize1 b), (bd_optimize2 b), (bd_optimize3 b), (x_machine H x); cbn [orb] in E; try discriminate E;
    injection E as <-; auto;
    right; eexists; (split; [|reflexivity]); auto.
Qed.

Lemma nz_ext : nz (u "c") /\ nz (u "ll") /\ nz (u "s") /\ nz (u "o").
Proof. repeat split; repeat constructor; discriminate. Qed.

Lemma stage_fair : forall b freed base file m0 m s l r, bd_c_backend b = false ->
  gen_module H fold (s_syms s) (bd_debug b) l = Ok m0 -> optimize_llvm H x b m0 = Some m ->
  emit_stage_1 H x b freed base file m = Ok r -> fair b base file s l r.
Proof.
  intros b freed base file m0 m s l r C G O E. pose proof (optimized _ _ _ _ _ G O) as HM. destruct nz_ext as (_ & Nl & Ns & No).
  unfold emit_stage_1 in E. destruct (bd_preprocess b) eqn:P.
  - destruct (text_eqb file (u "-")) eqn:F.
    + injection E as <-. split; [intros f o [X|[]]; discriminate X|]. intros _ _ _ X. apply text_eqb_eq in F. now elim X.
    + apply bind_ok in E as (out & Eo & E). destruct (x_print H x out); injection E as <-.
      * assert (M : made_from H fold x b base s l (IRText H m)) by (repeat split; assumption).
        split; [intros f o [X|[]]; injection X as _ <-; exact M|]. intros _ Nb Nf _. cbn [r_events].
        apply dl_ir; try assumption. pose proof (named_new b (u "ll") file out Nf Nl) as X. rewrite P in X. apply X; [exact Eo|now left].
      * split; [intros f o [X|[]]; discriminate X|]. intro X; discriminate X.
  - destruct (negb (x_machine H x)).
    { injection E as <-. split; [intros f o [X|[]]; discriminate X|]. intro X; discriminate X. }
    apply bind_ok in E as (out & Eo & E).
    destruct (negb (bd_asm_backend b) && text_eqb out (u "-")) eqn:D; cbn [set_out_file bd_asm_backend bd_compile_only] in E; rewrite D in E.
    { injection E as <-. split; [intros f o [X|[]]; discriminate X|]. intro X; discriminate X. }
    destruct (negb (x_emit H x (bd_asm_backend b) out)).
    { injection E as <-. split; [intros f o [X|[]]; discriminate X|]. intro X; discriminate X. }
    assert (NM : nz base -> named b false base (if bd_asm_backend b then u "s" else u "o") out).
    { intro Nb. unfold named. destruct (bd_out_file b) as [o|]; [now injection Eo as <-|].
      destruct (gen_total base (if bd_asm_backend b then u "s" else u "o") Nb) as (o & E' & S');
        [destruct (bd_asm_backend b); assumption|]. rewrite E' in Eo. now injection Eo as <-. }
    destruct (bd_asm_backend b) eqn:A.
    + rewrite orb_true_r in E. injection E as <-.
      assert (M : made_from H fold x b base s l (Assembly H m)) by (repeat split; assumption).
      split; [intros f o [X|[]]; injection X as _ <-; exact M|]. intros _ Nb Nf _. cbn [r_events].
      apply dl_asm; auto.
    + assert (M : made_from H fold x b base s l (Object H m)) by (repeat split; assumption).
      rewrite orb_false_r in E. destruct (bd_compile_only b) eqn:CO.
      * injection E as <-. split; [intros f o [X|[]]; injection X as _ <-; exact M|]. intros _ Nb Nf _. cbn [r_events].
        apply dl_object; auto.
      * unfold emit_native_binary in E. apply bind_ok in E as (binary & Eb & E).
        destruct (x_directory H x binary) eqn:XD.
        { injection E as <-. split; [intros f o [X|[X|[]]]; [injection X as _ <-; exact M|discriminate X]|]. intro X; discriminate X. }
        apply bind_ok in E as (extra & Ee & E). cbn [set_out_file bd_extra_args] in E, Ee.
        assert (EX : extra = match bd_extra_args b with Some t => t | None => [] end).
        { destruct (bd_extra_args b); [destruct freed; [discriminate|]|]; now injection Ee as <-. }
        injection E as <-. cbn [app]. split.
        { intros f o [X|[X|[X|[]]]]; [injection X as _ <-; exact M|discriminate X|discriminate X]. }
        cbn [r_failed r_events]. intros F Nb Nf _. destruct (binary_split _ _ Nb Eb) as (ext & Eq & Ni).
        eapply dl_binary with (name := binary) (ext := ext) (binary := binary) (m := m); auto.
        { now rewrite EX. }
        apply negb_false_iff in F. apply N.eqb_eq in F.
        destruct (x_shell H x (link_command out binary extra)) as [n|n] eqn:Sh.
        -- exists n. left. now split.
        -- exists n. now right.
Qed.

Lemma llvm_fair : forall b freed base file s l r, bd_c_backend b = false ->
  llvm_backend H fold x b freed base file s l = Ok r -> fair b base file s l r.
Proof.
  intros b freed base file s l r C E. unfold llvm_backend in E. apply bind_ok in E as (m0 & G & E).
  destruct (will_build_binary b && negb (x_helpers H x m0)).
  { injection E as <-. split; [intros f o [X|[]]; discriminate X|]. intro X; discriminate X. }
  destruct (negb (bd_llvm_no_verify b) && negb (x_verify H x m0)).
  { injection E as <-. split; [intros f o [X|[]]; discriminate X|]. intro X; discriminate X. }
  destruct (optimize_llvm H x b m0) as [m|] eqn:O.
  - exact (stage_fair _ _ _ _ _ _ _ _ _ C G O E).
  - injection E as <-. split; [intros f o [X|[]]; discriminate X|]. intro X; discriminate X.
Qed.

(** A file that is read: either it is rejected without an event, or it is accepted. *)
Lemma run_fair : forall b freed base file contents r, x_read H x file = Some contents ->
  run_pipeline H fold x b freed base file contents = Ok r ->
  (r_failed H r = true /\ r_events H r = []) \/
  (exists s l, file_accepted H x b base file s l /\ fair b base file s l r).
Proof.
  intros b freed base file contents r RD E. unfold run_pipeline in E.
  destruct (mbstoc32s (c_string contents)) as [src|i|] eqn:D; [|injection E as <-; now left|discriminate].
  apply decode_utf8_l in D.
  destruct (tokenize (bd_werror b) src) as [bom raw|bom e| |] eqn:T; [|injection E as <-; now left|discriminate|discriminate].
  apply bind_ok in E as (ts & CL & E).
  destruct (parse_ast_tree ts) as [m [tree|]| |] eqn:P; [|injection E as <-; now left|discriminate|discriminate].
  apply bind_ok in E as (r' & E & E'). injection E' as <-. unfold with_notes; cbn [r_failed r_events].
  assert (HT : holds_text contents (if bom then tl src else src) /\ tokenize_text (if bom then tl src else src) = LOk raw).
  { unfold tokenize in T. destruct (hd 0 src =? 65279) eqn:B.
    - destruct (bd_werror b); cbn [andb] in T; [discriminate|].
      destruct (tokenize_text (tl src)) as [ts'|? ?| |] eqn:TT; try discriminate. injection T as <- <-.
      split; [|exact TT]. exists (c_string contents). split; [apply c_string_until|]. right.
      apply N.eqb_eq in B. destruct src as [|c src]; [discriminate|]. cbn [hd tl] in *. subst c. exact D.
    - cbn [andb] in T. destruct (tokenize_text src) as [ts'|? ?| |] eqn:TT; try discriminate. injection T as <- <-.
      split; [|exact TT]. exists (c_string contents). split; [apply c_string_until|]. now left. }
  destruct HT as (HT & TT). unfold check_and_generate in E.
  destruct (empty_tree tree); [injection E as <-; now left|].
  match type of E with context [validate_ast_tree ?w ?t ?tr] => destruct (validate_ast_tree w t tr) as [s l|msgs|] eqn:V end;
    [|injection E as <-; now left|discriminate E].
  apply bind_ok in E as (r & E & E'). injection E' as <-. cbn [r_failed r_events]. right. exists s, l. split.
  { exists contents, (if bom then tl src else src), ts, tree. split; [exact RD|]. split; [exact HT|]. split; [now exists raw|].
    split; [now exists m|exact V]. }
  destruct (bd_c_backend b) eqn:C.
  - exact (c_fair _ _ _ _ _ _ _ C E).
  - exact (llvm_fair _ _ _ _ _ _ _ C E).
Qed.

Lemma output_accepted_l : forall b freed base file r, compile_file H fold x b freed base file = Ok r ->
  (exists e, In e (r_events H r) /\ touches H e) ->
  exists s l, file_accepted H x b base file s l /\
    forall f o, In (Wrote H f o) (r_events H r) -> made_from H fold x b base s l o.
Proof.
  intros b freed base file r E (e & I & T). unfold compile_file in E.
  destruct (negb (name_accepted file)); [injection E as <-; destruct I as [<-|[]]; now elim T|].
  destruct (x_read H x file) as [contents|] eqn:RD; [|injection E as <-; destruct I as [<-|[]]; now elim T].
  destruct contents as [|c contents]; [injection E as <-; now elim I|].
  destruct (run_fair _ _ _ _ _ _ RD E) as [(_ & X)|(s & l & A & F & _)]; [rewrite X in I; now elim I|]. eauto.
Qed.

Lemma success_l : forall b freed base file r, compile_file H fold x b freed base file = Ok r ->
  nz base -> nz file -> r_failed H r = false ->
  (x_read H x file = Some [] /\ bd_werror b = false /\ r_events H r = []) \/
  (exists s l, file_accepted H x b base file s l /\ delivered H fold x b base file s l (r_events H r)).
Proof.
  intros b freed base file r E Nb Nf F. unfold compile_file in E.
  destruct (name_accepted file) eqn:NA; cbn [negb] in E; [|injection E as <-; discriminate F].
  destruct (x_read H x file) as [contents|] eqn:RD; [|injection E as <-; discriminate F].
  destruct contents as [|c contents]; [injection E as <-; now left|]. right.
  destruct (run_fair _ _ _ _ _ _ RD E) as [(X & _)|(s & l & A & _ & D)]; [congruence|]. exists s, l. split; [exact A|].
  apply D; auto. intros ->. vm_compute in NA. discriminate.
Qed.

(** Files behind one that fails. *)
Lemma later_ignored_l : forall before b freed base f e n, 
  real_main_loop H fold x b freed base (before ++ [f]) = Ok (true, e, n) ->
  forall after, real_main_loop H fold x b freed base (before ++ f :: after) = Ok (true, e, n).
Proof.
  induction before as [|g before IH]; intros b freed base f e n E after.
  - cbn [app real_main_loop] in *. destruct (compile_file H fold x b freed base f) as [r|]; [|discriminate E].
    cbn [bind] in *. destruct (r_failed H r); [exact E|]. cbn [bind] in E. discriminate E.
  - cbn [app real_main_loop] in *. destruct (compile_file H fold x b freed base g) as [r|]; [|discriminate E].
    cbn [bind] in *. destruct (r_failed H r); [exact E|].
    apply bind_ok in E as (((q & e') & n') & E & E2). injection E2 as -> <- <-.
    rewrite (IH _ _ _ _ _ _ E after). reflexivity.
Qed.

(** How a run over several files ends. *)
Lemma loop_inv : forall files b freed base q e n, real_main_loop H fold x b freed base files = Ok (q, e, n) ->
  (forall ev, In ev e -> exists f b' freed' r, In f files /\ compile_file H fold x b' freed' base f = Ok r /\ In ev (r_events H r)).
Proof.
  induction files as [|f files IH]; intros b freed base q e n E ev I; cbn [real_main_loop] in E.
  - injection E as _ <- _. destruct I.
  - apply bind_ok in E as (r & E & E2). destruct (r_failed H r).
    + injection E2 as _ <- _. exists f, b, freed, r. split; [now left|now split].
    + apply bind_ok in E2 as (((q' & e') & n') & E2 & E3). injection E3 as _ <- _.
      apply in_app_or in I as [I|I].
      * exists f, b, freed, r. split; [now left|now split].
      * destruct (IH _ _ _ _ _ _ E2 _ I) as (g & b' & fr & r' & X & Y). exists g, b', fr, r'. split; [now right|exact Y].
Qed.

Lemma main_inv : forall color argv c e n, skull_main H fold x color argv = Ok (c, e, n) ->
  (cli_main color argv = Exit c /\ e = []) \/
  (exists b f r, cli_main color argv = Go b /\ bd_filename b = Some f /\ compile_file H fold x b false f f = Ok r /\
     c = (if r_failed H r then 1 else 0) /\ e = r_events H r /\ n = (if bd_quiet b then [] else r_notes H r)).
Proof.
  intros color argv c e n E. unfold skull_main in E. destruct (cli_main color argv) as [k|b|] eqn:M; [|right|discriminate E].
  - left. injection E as <- <- _. now split.
  - destruct (bd_filename b) as [f|] eqn:Fn; [|discriminate E]. cbn [real_main_loop] in E.
    apply bind_ok in E as (((q & e') & n') & E & E2). injection E2 as <- <- <-.
    apply bind_ok in E as (r & E & E2). exists b, f, r. split; [reflexivity|]. split; [exact Fn|]. split; [exact E|].
    destruct (r_failed H r).
    + injection E2 as <- <- <-. now repeat split.
    + cbn [bind] in E2. rewrite !app_nil_r in E2. injection E2 as <- <- <-. now repeat split.
Qed.

Lemma filename_nz : forall color argv b f, Forall nz argv -> cli_main color argv = Go b -> bd_filename b = Some f -> nz f.
Proof.
  intros color argv b f Z E Fn.
  assert (X : forall n ce b0 args b', (List.length args <= n)%nat -> Forall nz args -> (forall g, bd_filename b0 = Some g -> nz g) ->
     handle_args ce b0 args = Go b' -> forall g, bd_filename b' = Some g -> nz g).
  { clear. induction n as [|n IH]; intros ce b0 args b' Ln Z Z0 E g G.
    { destruct args; [|cbn in Ln; lia]. injection E as <-. now apply Z0. }
    destruct args as [|a rest]; [injection E as <-; now apply Z0|].
    cbn [handle_args] in E. inversion Z as [|? ? Za Zr]; subst. cbn [List.length] in Ln.
    destruct (negb (at_ a 0 =? c_dash)).
    { refine (IH _ _ _ _ _ _ _ E _ G); [lia|exact Zr|]. intros h X. injection X as <-. exact Za. }
    assert (SB : forall f0 b1, set_bool_flag b0 f0 = inl b1 -> bd_filename b1 = bd_filename b0).
    { intros f0 b1 X. unfold set_bool_flag in X. destruct (get_flag b0 f0); [discriminate X|]. injection X as <-. reflexivity. }
    assert (SL : forall w b1, parse_long_option ce b0 w = inl b1 -> bd_filename b1 = bd_filename b0).
    { intros w b1 X. unfold parse_long_option in X.
      repeat match type of X with context [if ?c then _ else _] => destruct c; try discriminate X; try (now apply SB in X) end. }
    assert (C : forall r, match r with inl b1 => handle_args ce b1 rest | inr code => Exit code end = Go b' ->
       (forall b1, r = inl b1 -> bd_filename b1 = bd_filename b0) -> nz g).
    { intros [b1|k] X Y; [|discriminate X]. refine (IH _ _ _ _ _ _ _ X _ G); [lia|exact Zr|].
      intros h. rewrite (Y _ eq_refl). apply Z0. }
    destruct (negb (at_ a 1 =? chr "O") && (negb (at_ a 1 =? 0) && negb (at_ a 1 =? c_dash) && negb (at_ a 2 =? 0))); [discriminate E|].
    destruct (at_ a 1 =? chr "h"); [discriminate E|].
    destruct (at_ a 1 =? chr "v"); [discriminate E|].
    destruct (at_ a 1 =? chr "c"); [exact (C _ E (SB _))|].
    destruct (at_ a 1 =? chr "S"); [exact (C _ E (SB _))|].
    destruct (at_ a 1 =? chr "E"); [exact (C _ E (SB _))|].
    destruct (at_ a 1 =? chr "g"); [exact (C _ E (SB _))|].
    destruct (at_ a 1 =? chr "q"); [exact (C _ E (SB _))|].
    destruct (at_ a 1 =? chr "O").
    { destruct (at_ a 2 =? chr "1"); [exact (C _ E (SB _))|].
      destruct (at_ a 2 =? chr "2"); [exact (C _ E (SB _))|].
      destruct (at_ a 2 =? chr "3"); [exact (C _ E (SB _))|discriminate E]. }
    destruct (at_ a 1 =? chr "o").
    { destruct (bd_out_file b0); [discriminate E|]. destruct rest as [|o rest]; [discriminate E|].
      inversion Zr as [|? ? _ Zr']; subst. cbn [List.length] in Ln. refine (IH _ _ _ _ _ _ _ E _ G); [lia|exact Zr'|exact Z0]. }
    destruct (at_ a 1 =? c_dash); [|discriminate E].
    destruct (negb (at_ a 2 =? 0)); [exact (C _ E (SL _))|].
    destruct rest as [|y rest]; [discriminate E|]. destruct (squash_argv (y :: rest)) as [t|]; [|discriminate E].
    injection E as <-. apply Z0. exact G. }
  destruct argv as [|a r]; [discriminate E|]. unfold cli_main in E.
  match type of E with context [handle_args ?c ?b0 ?l] => destruct (handle_args c b0 l) as [k|b1|] eqn:HA end; try discriminate E.
  destruct (negb (build_data_valid b1)); [discriminate E|]. destruct (bd_filename b1) as [g|] eqn:G; [|discriminate E].
  destruct (strrstr g (u ".sk")); [|discriminate E]. injection E as <-. rewrite G in Fn. injection Fn as <-.
  refine (X _ _ _ _ _ (le_n _) Z _ HA _ G). intros h Y. discriminate Y.
Qed.

Lemma main_touches_l : forall color argv c e n, skull_main H fold x color argv = Ok (c, e, n) ->
  (exists ev, In ev e /\ touches H ev) ->
  exists b f s l, cli_main color argv = Go b /\ bd_filename b = Some f /\ file_accepted H x b f f s l /\
    forall g o, In (Wrote H g o) e -> made_from H fold x b f s l o.
Proof.
  intros color argv c e n E T. destruct (main_inv _ _ _ _ _ E) as [(_ & ->)|(b & f & r & M & Fn & C & _ & -> & _)].
  - destruct T as (ev & [] & _).
  - destruct (output_accepted_l _ _ _ _ _ C T) as (s & l & A & B). exists b, f, s, l. auto.
Qed.

Lemma main_success_l : forall color argv b f e n, Forall nz argv -> cli_main color argv = Go b -> bd_filename b = Some f ->
  skull_main H fold x color argv = Ok (0, e, n) ->
  (x_read H x f = Some [] /\ bd_werror b = false /\ e = []) \/
  (exists s l, file_accepted H x b f f s l /\ delivered H fold x b f f s l e).
Proof.
  intros color argv b f e n Z M Fn E. pose proof (filename_nz _ _ _ _ Z M Fn) as Zf.
  destruct (main_inv _ _ _ _ _ E) as [(X & _)|(b' & f' & r & M' & Fn' & C & F & -> & _)]; [congruence|].
  rewrite M in M'. injection M' as <-. rewrite Fn in Fn'. injection Fn' as <-.
  apply (success_l _ _ _ _ _ C Zf Zf). destruct (r_failed H r); [discriminate F|reflexivity].
Qed.
End Pipeline.
