(** Proofs about the command for the linker. *)
From Coq Require Import List Arith NArith ZArith Bool Lia Ascii String.
From Verif Require Import Base Model_Token Model_Utf8 Model_Classify Model_Literal Model_Parse Model_Sem Model_Names Spec_Names Proof_Names Model_Cli Spec_Cli Proof_Cli
  Spec_Run Spec_IR Model_LLVM Model_CGen Model_CFile Model_Pipeline Spec_Pipeline Proof_Pipeline Spec_Shell.
Import ListNotations.
Open Scope list_scope.
Open Scope N_scope.

Lemma read_quoted : forall t rest w ws cs, quotable t ->
  read_line (t ++ 34 :: rest) true (Some w) ws cs = read_line rest false (Some (w ++ t)) ws cs.
Proof.
  induction t as [|c t IH]; intros rest w ws cs Q.
  - cbn [app read_line]. now rewrite app_nil_r.
  - inversion Q as [|? ? (A & B) Q']; subst. cbn [app read_line].
    rewrite (proj2 (N.eqb_neq c 34) B), A. change (more (Some w) c) with (Some (w ++ [c])). refine (eq_trans (IH rest (w ++ [c]) ws cs Q') _). now rewrite <- app_assoc.
Qed.

Lemma read_quote : forall t rest ws cs, quotable t ->
  read_line (34 :: t ++ 34 :: rest) false None ws cs = read_line rest false (Some t) ws cs.
Proof. intros. cbn [read_line N.eqb Pos.eqb]. now rewrite (read_quoted t rest [] ws cs). Qed.

Lemma read_word : forall t rest w ws cs, ws <> [] ->
  Forall (fun c => not_here c = false /\ is_blank c = false /\ ends_command c = false /\ c <> 34) t ->
  read_line (t ++ rest) false (Some w) ws cs = read_line rest false (Some (w ++ t)) ws cs.
Proof.
  induction t as [|c t IH]; intros rest w ws cs Nw Q.
  - cbn [app]. now rewrite app_nil_r.
  - inversion Q as [|? ? (A & B & C & D) Q']; subst. cbn [app read_line].
    rewrite (proj2 (N.eqb_neq c 34) D), A, B, C.
    replace (match ws with [] => true | _ => false end) with false by (destruct ws; [now elim Nw|reflexivity]).
    rewrite andb_false_r. change (more (Some w) c) with (Some (w ++ [c])). refine (eq_trans (IH rest (w ++ [c]) ws cs Nw Q') _). now rewrite <- app_assoc.
Qed.

Lemma read_new_word : forall t rest ws cs, ws <> [] -> plain_word t ->
  read_line (t ++ 32 :: rest) false None ws cs = read_line rest false None (ws ++ [t]) cs.
Proof.
  intros t rest ws cs Nw (Ne & Q). destruct t as [|c t]; [now elim Ne|].
  inversion Q as [|? ? (A & B & C & D) Q']; subst. cbn [app read_line].
  rewrite (proj2 (N.eqb_neq c 34) D), A, B, C.
  replace (match ws with [] => true | _ => false end) with false by (destruct ws; [now elim Nw|reflexivity]).
  rewrite andb_false_r. change (more None c) with (Some [c]). refine (eq_trans (read_word t (32 :: rest) [c] ws cs Nw Q') _).
  cbn [app read_line N.eqb Pos.eqb is_blank orb end_word]. reflexivity.
Qed.

Lemma read_joined : forall ex rest ws cs, ws <> [] -> Forall plain_word ex ->
  read_line (joined ex ++ 32 :: rest) false None ws cs = read_line rest false None (ws ++ ex) cs.
Proof.
  induction ex as [|a ex IH]; intros rest ws cs Nw P.
  - cbn [joined app read_line N.eqb Pos.eqb is_blank orb end_word]. now rewrite app_nil_r.
  - inversion P as [|? ? Pa Pe]; subst. destruct ex as [|b ex].
    + cbn [joined]. now apply read_new_word.
    + change (joined (a :: b :: ex)) with (a ++ 32 :: joined (b :: ex)). rewrite <- app_assoc. cbn [app].
      rewrite (read_new_word _ _ _ _ Nw Pa), IH; [|destruct ws; discriminate|exact Pe]. now rewrite <- app_assoc.
Qed.

Lemma link_words : forall object binary ex, quotable object -> quotable binary -> Forall plain_word ex ->
  shell (link_command object binary (joined ex)) =
  Some [[u "cc"; u "-nostartfiles"; object; u "-o"; binary] ++ ex ++ [u "-I/usr/include/skull"; u "-lm"]].
Proof.
  intros object binary ex Qo Qb P. unfold shell, link_command.
  transitivity (read_line (34 :: object ++ 34 :: u " -o " ++ 34 :: binary ++ 34 :: u " " ++ joined ex ++ u " -I/usr/include/skull -lm")
                  false None [u "cc"; u "-nostartfiles"] []); [reflexivity|].
  rewrite (read_quote object _ _ _ Qo).
  transitivity (read_line (34 :: binary ++ 34 :: u " " ++ joined ex ++ u " -I/usr/include/skull -lm")
                  false None [u "cc"; u "-nostartfiles"; object; u "-o"] []); [reflexivity|].
  rewrite (read_quote binary _ _ _ Qb).
  transitivity (read_line (joined ex ++ 32 :: u "-I/usr/include/skull -lm")
                  false None [u "cc"; u "-nostartfiles"; object; u "-o"; binary] []); [reflexivity|].
  rewrite read_joined; [|discriminate|exact P].
  transitivity (Some [(([u "cc"; u "-nostartfiles"; object; u "-o"; binary] ++ ex) ++ [u "-I/usr/include/skull"]) ++ [u "-lm"]]);
    [reflexivity|]. now rewrite <- !app_assoc.
Qed.

Lemma quotable_app : forall a b, quotable (a ++ b) <-> quotable a /\ quotable b.
Proof. intros a b. apply Forall_app. Qed.
Lemma quotable_cons : forall c t, quotable (c :: t) <-> (not_in_quotes c = false /\ c <> 34) /\ quotable t.
Proof. intros c t. apply Forall_cons_iff. Qed.
Lemma quotable_sibling : forall path out, hidden_sibling (u "o") path out -> quotable path -> quotable out.
Proof.
  assert (D : not_in_quotes (chr ".") = false /\ chr "." <> 34) by (split; [reflexivity|discriminate]).
  assert (O : quotable (u "o")) by (repeat constructor; discriminate).
  intros path out [base _|dir base _] Q.
  - apply quotable_cons. split; [exact D|]. apply quotable_app. split; [exact Q|]. now apply quotable_cons.
  - apply quotable_app in Q as (Qd & Q). apply quotable_cons in Q as (Qs & Qb).
    apply quotable_app. split; [exact Qd|]. apply quotable_cons. split; [exact Qs|].
    apply quotable_cons. split; [exact D|]. apply quotable_app. split; [exact Qb|]. now apply quotable_cons.
Qed.

Section Pipeline.
Variable H : host.
Variable fold : iop -> operand H -> operand H -> option (operand H).
Variable x : outside H.

(** The commands of a run. *)
Definition linked (b : build_data) (base : text) (e : list (event H)) : Prop :=
  forall c, In (Ran H c) e -> exists out binary ext, named b false base (u "o") out /\
    base = binary ++ chr "." :: ext /\ ~ In (chr ".") ext /\
    c = link_command out binary (match bd_extra_args b with Some t => t | None => [] end).

Lemma stage_linked : forall b freed base file m r, nz base ->
  emit_stage_1 H x b freed base file m = Ok r -> linked b base (r_events H r).
Proof.
  intros b freed base file m r Nb E. destruct nz_ext as (_ & _ & _ & No). unfold emit_stage_1 in E. 
  assert (Q : forall p : event H, (forall c, p <> Ran H c) -> linked b base [p]) by (intros p X c [Y|[]]; now elim (X c)).
  destruct (bd_preprocess b).
  { destruct (text_eqb file (u "-")); [injection E as <-; apply Q; discriminate|].
    apply bind_ok in E as (out & _ & E). destruct (x_print H x out); injection E as <-; apply Q; discriminate. }
  destruct (negb (x_machine H x)); [injection E as <-; apply Q; discriminate|].
  apply bind_ok in E as (out & Eo & E). cbn [set_out_file bd_asm_backend bd_compile_only] in E.
  destruct (negb (bd_asm_backend b) && text_eqb out (u "-")); [injection E as <-; apply Q; discriminate|].
  destruct (negb (x_emit H x (bd_asm_backend b) out)); [injection E as <-; apply Q; discriminate|].
  destruct (bd_compile_only b || bd_asm_backend b) eqn:D; [injection E as <-; apply Q; discriminate|].
  apply orb_false_iff in D as (_ & A). rewrite A in *.
  unfold emit_native_binary in E. apply bind_ok in E as (binary & Eb & E).
  destruct (x_directory H x binary); [injection E as <-; intros c [X|[X|[]]]; discriminate X|].
  apply bind_ok in E as (extra & Ee & E). cbn [set_out_file bd_extra_args] in Ee, E. injection E as <-.
  intros c [X|[X|[X|[]]]]; try discriminate X. injection X as <-.
  destruct (binary_split _ _ Nb Eb) as (ext & Eq & Ni). exists out, binary, ext. split.
  { unfold named. destruct (bd_out_file b) as [o|]; [now injection Eo as <-|].
    destruct (gen_total base (u "o") Nb No) as (o & E' & S'). rewrite E' in Eo. now injection Eo as <-. }
  split; [exact Eq|]. split; [exact Ni|]. f_equal.
  destruct (bd_extra_args b); [destruct freed; [discriminate|]|]; now injection Ee as <-.
Qed.

Lemma file_linked : forall b freed base file r, nz base ->
  compile_file H fold x b freed base file = Ok r -> linked b base (r_events H r).
Proof.
  intros b freed base file r Nb E.
  assert (Q0 : linked b base []) by (intros c []).
  assert (Q : forall p, linked b base [Said H p]) by (intros p c [Y|[]]; discriminate Y).
  unfold compile_file in E. destruct (negb (name_accepted file)); [injection E as <-; apply Q|].
  destruct (x_read H x file) as [[|k contents]|]; [injection E as <-; apply Q0| |injection E as <-; apply Q].
  unfold run_pipeline in E.
  destruct (mbstoc32s (c_string (k :: contents))) as [src|i|]; [|injection E as <-; exact Q0|discriminate].
  destruct (tokenize (bd_werror b) src) as [bom raw|bom e| |]; try discriminate E; [|injection E as <-; exact Q0].
  apply bind_ok in E as (ts & _ & E). destruct (parse_ast_tree ts) as [m [tree|]| |]; try discriminate E;
    [|injection E as <-; exact Q0].
  apply bind_ok in E as (r0 & E & E2). injection E2 as <-. cbn [with_notes r_events].
  unfold check_and_generate in E. destruct (empty_tree tree); [injection E as <-; exact Q0|].
  match type of E with context [validate_ast_tree ?w ?bd ?t] => destruct (validate_ast_tree w bd t) as [s l|m0|] end;
    [|injection E as <-; exact Q0|discriminate E].
  apply bind_ok in E as (r1 & E & E2). injection E2 as <-. cbn [with_notes r_events].
  destruct (bd_c_backend b).
  - unfold c_backend in E. apply bind_ok in E as (t & _ & E). apply bind_ok in E as (out & _ & E).
    destruct (text_eqb out (u "-") || x_writable H x out); [|discriminate]. injection E as <-.
    intros c [Y|[]]. discriminate Y.
  - unfold llvm_backend in E. apply bind_ok in E as (m1 & _ & E).
    destruct (will_build_binary b && negb (x_helpers H x m1)); [injection E as <-; apply Q|].
    destruct (negb (bd_llvm_no_verify b) && negb (x_verify H x m1)); [injection E as <-; apply Q|].
    destruct (optimize_llvm H x b m1) as [m2|]; [|injection E as <-; apply Q].
    exact (stage_linked _ _ _ _ _ _ Nb E).
Qed.

Lemma commands_l : forall color argv its ex code e n cmd,
  Forall nz argv -> command its ex argv -> N.of_nat (List.length (joined ex)) < 2 ^ 63 ->
  skull_main H fold x color argv = Ok (code, e, n) -> In (Ran H cmd) e ->
  (forall f, In f (files_of its) -> quotable f) -> (forall f, In f (outs_of its) -> quotable f) -> Forall plain_word ex ->
  exists file object binary ext, In file (files_of its) /\ file = binary ++ chr "." :: ext /\ ~ In (chr ".") ext /\
    (In object (outs_of its) \/ hidden_sibling (u "o") file object) /\
    shell cmd = Some [[u "cc"; u "-nostartfiles"; object; u "-o"; binary] ++ ex ++ [u "-I/usr/include/skull"; u "-lm"]].
Proof.
  intros color argv its ex code e n cmd Z C L E I Qf Qo P.
  destruct (main_inv _ _ _ _ _ _ _ _ E) as [(_ & ->)|(b & f & r & M & Fn & CF & _ & -> & _)]; [now elim I|].
  pose proof (filename_nz _ _ _ _ Z M Fn) as Zf.
  destruct (file_linked _ _ _ _ _ Zf CF _ I) as (out & binary & ext & Nm & Eq & Ni & ->).
  assert (Zx : Forall nz ex).
  { clear - C Z. induction C as [| |i a its ex rest W C IH]; [constructor|inversion Z; assumption|].
    apply Forall_app in Z as (_ & Z). now apply IH. }
  assert (Na : argv <> []) by (intros ->; discriminate M).
  destruct (cli_ok color its ex argv C Na Zx L) as [(_ & b' & M' & A)|(_ & X)]; [|congruence].
  rewrite M in M'. injection M' as <-. destruct A as (_ & Af & Ao & Ae).
  assert (If : In f (files_of its)).
  { rewrite Fn in Af. symmetry in Af. clear - Af. induction (files_of its) as [|a l IH]; [discriminate Af|].
    cbn [map last] in Af. destruct l as [|a' l]; [injection Af as <-; now left|]. right. now apply IH. }
  exists f, out, binary, ext. split; [exact If|]. split; [exact Eq|]. split; [exact Ni|].
  assert (O : (In out (outs_of its) \/ hidden_sibling (u "o") f out) /\ quotable out).
  { unfold named in Nm. rewrite Ao in Nm. destruct (outs_of its) as [|o os]; cbn [hd_error] in Nm.
    - split; [now right|]. exact (quotable_sibling _ _ Nm (Qf _ If)).
    - subst o. split; [left; now left|]. apply Qo. now left. }
  destruct O as (O & Qout). split; [exact O|].
  replace (match bd_extra_args b with Some t => t | None => [] end) with (joined ex).
  2: { rewrite Ae. destruct ex; reflexivity. }
  apply link_words; [exact Qout| |exact P].
  specialize (Qf _ If). rewrite Eq in Qf. now apply quotable_app in Qf as (X & _).
Qed.
End Pipeline.
