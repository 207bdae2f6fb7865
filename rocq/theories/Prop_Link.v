(** The names in the object files of the LLVM back end. *)
From Coq Require Import List Arith NArith ZArith Bool Lia Ascii String.
From Verif Require Import Base Model_Token Spec_Token Spec_Classify Model_Names Spec_Names Model_Parse Spec_Parse Model_Sem Spec_Sem Spec_Sem2 Spec_Run Spec_IR Model_LLVM Model_Link Spec_Link
  Proof_SemEx Proof_RunEx Prop_Sem Prop_LLVM Proof_Link4.
From Verif Require Spec_Pipeline.
Import ListNotations.
Open Scope list_scope.
Open Scope N_scope.

(** * Programs for the examples *)

(** One way to find a name that is not taken. *)
Definition ones (l : list text) (n : text) : text := n ++ chr "." :: repeat (chr "1") (S (List.length (List.concat l))).
Lemma ones_rename : renames ones.
Proof.
  intros l n. split.
  - intro I. assert (L : (List.length (ones l n) <= List.length (List.concat l))%nat).
    { generalize (ones l n), I. clear. intros x I. induction l as [|a l IH]; [destruct I|]. cbn [List.concat]. rewrite app_length. destruct I as [->|I]; [lia|apply IH in I; lia]. }
    unfold ones in L. rewrite app_length in L. cbn [List.length] in L. rewrite repeat_length in L. lia.
  - exists (repeat (chr "1") (S (List.length (List.concat l)))). split; [reflexivity|]. split; [discriminate|]. apply Forall_forall. intros c I. apply repeat_spec in I. subst c. split; vm_compute; discriminate.
Qed.

Definition apartb (ys : list symbol) (binary : bool) (ds : list nat) : bool :=
  forallb (fun j => forallb (fun k => implb (exported ys j && exported ys k && text_eqb (name_of ys j) (name_of ys k)) (Nat.eqb j k) &&
      implb (external ys j && negb (exported ys k) && text_eqb (name_of ys j) (name_of ys k)) (Nat.eqb j k)) ds &&
    implb (binary && negb (exported ys j)) (negb (text_eqb (name_of ys j) (u "exit")))) ds.
Lemma apart_of : forall ys binary l, apartb ys binary (declared ys l) = true -> apart ys binary l.
Proof.
  intros ys binary l E. unfold apartb in E. rewrite forallb_forall in E. constructor.
  - intros j k J K X Y N0. apply E in J. apply andb_true_iff in J as (J & _). rewrite forallb_forall in J. apply J in K. apply andb_true_iff in K as (K & _).
    rewrite X, Y, N0, text_eqb_refl in K. now apply Nat.eqb_eq in K.
  - intros j k J K X Y N0. apply E in J. apply andb_true_iff in J as (J & _). rewrite forallb_forall in J. apply J in K. apply andb_true_iff in K as (_ & K).
    rewrite X, Y, N0, text_eqb_refl in K. now apply Nat.eqb_eq in K.
  - intros B k K Y N0. apply E in K. apply andb_true_iff in K as (_ & K). rewrite B, Y, N0, text_eqb_refl in K. discriminate K.
Qed.
Lemma source_of : forall s, forallb (fun c => negb (c =? 0)) s = true -> source s.
Proof. intros s E I. rewrite forallb_forall in E. apply E in I. discriminate I. Qed.

Definition log_of (src : text) : list act :=
  match gen_log toy unfolded (s_syms (state_of plain src)) false (checked_of plain src) with Ok g => g | UB => [] end.
Definition names_in (file : text) (binary : bool) (src : text) : list entry :=
  match module_names ones (s_syms (state_of plain src)) file binary (log_of src) with Ok (Some T) => T | _ => [] end.
Definition makes (file : text) (binary : bool) (src : text) : bool :=
  generated src && match gen_log toy unfolded (s_syms (state_of plain src)) false (checked_of plain src) with
    | Ok log => match module_names ones (s_syms (state_of plain src)) file binary log with Ok (Some _) => true | _ => false end
    | UB => false
    end.
Lemma makes_file : forall file binary src, makes file binary src = true ->
  object_file toy unfolded ones file binary false (s_syms (state_of plain src)) (checked_of plain src) (code_of src) (names_in file binary src).
Proof.
  intros file binary src E. unfold makes, generated in E. unfold object_file, code_of, names_in, log_of.
  destruct (gen_module toy unfolded (s_syms (state_of plain src)) false (checked_of plain src)) as [M|]; [|discriminate E]. split; [reflexivity|].
  destruct (gen_log toy unfolded (s_syms (state_of plain src)) false (checked_of plain src)) as [log|]; [|discriminate E]. exists log. split; [reflexivity|].
  destruct (module_names ones (s_syms (state_of plain src)) file binary log) as [[T|]|]; try discriminate E. reflexivity.
Qed.

(** Exports, an external function, powers, strings, and two private functions of one name. *)
Definition shapes : text :=
  line "external say(what: Str)" ++
  line "external never(x: Int)" ++
  line "export limit := 10" ++
  line "export area(a: Int) Int {" ++
  line "  return a ^ 2" ++
  line "}" ++
  line "namespace old {" ++
  line "  check(a: Str) Bool {" ++
  line "    return a is ""x""" ++
  line "  }" ++
  line "}" ++
  line "check(a: Str) Bool {" ++
  line "  say(a)" ++
  line "  return old.check(a)" ++
  line "}" ++
  line "if check(""y"") {" ++
  line "  return area(limit)" ++
  line "}" ++
  line "return 0".
(** Another module. *)
Definition tools : text :=
  line "export area(a: Int) Int {" ++
  line "  return a" ++
  line "}" ++
  line "return area(1)".
Definition exits : text :=
  line "external exit(code: Int)" ++
  line "exit(3)" ++
  line "return 0".
Definition shadowed : text :=
  line "namespace old {" ++
  line "  say() Int {" ++
  line "    return 1" ++
  line "  }" ++
  line "}" ++
  line "external say() Int" ++
  line "x := old.say()" ++
  line "return x + say()".
Definition twice_there : text :=
  line "if true {" ++
  line "  export x := 1" ++
  line "}" ++
  line "if false {" ++
  line "  export x := 2" ++
  line "}" ++
  line "return 0".

Lemma checked_by : forall src, forallb (fun c => negb (c =? 0)) src && (N.of_nat (List.length src) + 2 <? 2 ^ 32) = true -> Spec_Pipeline.lexed src (tokens_of src) ->
  compiles plain src = true -> no_call_blocks (tree_of plain src) -> few_arguments (tree_of plain src) ->
  checked_program plain src (tokens_of src) (tree_of plain src) (state_of plain src) (checked_of plain src).
Proof.
  intros src E LX C NC FA. apply andb_true_iff in E as (E & F). apply N.ltb_lt in F. exact (conj (source_of _ E) (conj F (conj LX (conj (compiles_accepted _ _ C) (conj NC FA))))).
Qed.
Ltac checked src :=
  refine (checked_by src _ _ _ _ _);
  [vm_compute; reflexivity|eexists; split; [vm_compute; reflexivity|vm_compute; reflexivity]|vm_compute; reflexivity|apply no_call_blocks_of; vm_compute; reflexivity|apply few_arguments_of; vm_compute; reflexivity].
Lemma shapes_checked : checked_program plain shapes (tokens_of shapes) (tree_of plain shapes) (state_of plain shapes) (checked_of plain shapes).
Proof. checked shapes. Qed.
Lemma tools_checked : checked_program plain tools (tokens_of tools) (tree_of plain tools) (state_of plain tools) (checked_of plain tools).
Proof. checked tools. Qed.
Lemma shapes_named : module_name (u "lib/shapes.sk") (u "shapes").
Proof.
  split; [split; [intro Z; cbn in Z; repeat destruct Z as [Z|Z]; try discriminate Z; exact Z|right; exists (u "lib"); reflexivity]|].
  split; [repeat constructor; discriminate|vm_compute; reflexivity].
Qed.
Lemma tools_named : module_name (u "tools.sk") (u "tools").
Proof.
  split; [split; [intro Z; cbn in Z; repeat destruct Z as [Z|Z]; try discriminate Z; exact Z|left; reflexivity]|].
  split; [repeat constructor; discriminate|vm_compute; reflexivity].
Qed.
Lemma shapes_apart : forall binary, apart (s_syms (state_of plain shapes)) binary (checked_of plain shapes).
Proof. intro binary. apply apart_of. destruct binary; vm_compute; reflexivity. Qed.
Lemma tools_apart : apart (s_syms (state_of plain tools)) false (checked_of plain tools).
Proof. apply apart_of. vm_compute. reflexivity. Qed.
Lemma shapes_file : forall binary, object_file toy unfolded ones (u "lib/shapes.sk") binary false (s_syms (state_of plain shapes)) (checked_of plain shapes)
  (code_of shapes) (names_in (u "lib/shapes.sk") binary shapes).
Proof. intro binary. apply makes_file. destruct binary; vm_compute; reflexivity. Qed.
Lemma tools_file : object_file toy unfolded ones (u "tools.sk") false false (s_syms (state_of plain tools)) (checked_of plain tools)
  (code_of tools) (names_in (u "tools.sk") false tools).
Proof. apply makes_file. vm_compute. reflexivity. Qed.
Definition callee_dec : forall a b : callee, {a = b} + {a <> b}.
Proof. decide equality. apply Nat.eq_dec. Defined.
Definition callsb (M : module toy) (f : callee) : bool :=
  existsb (existsb (fun i => match i with ICall _ g _ => if callee_dec g f then true else false | _ => false end)) (m_blocks toy M).
Lemma calls_dec : forall M f, calls M f -> callsb M f = true.
Proof.
  intros M f (code & r & l & I & J). apply existsb_exists. exists code. split; [exact I|]. apply existsb_exists. eexists. split; [exact J|]. cbn. now destruct (callee_dec f f).
Qed.
Lemma calls_of : forall M f, callsb M f = true -> calls M f.
Proof.
  intros M f E. apply existsb_exists in E as (code & I & E). apply existsb_exists in E as (i & J & E). destruct i as [| | | |r g l| | | |]; try discriminate E.
  destruct (callee_dec g f) as [->|]; [|discriminate E]. exists code, r, l. auto.
Qed.

(** * Theorems *)

(** C64: unless names collide, the object file of an accepted program is made. Its values have
    different names. It defines the main function of the module, what the program exports and,
    for an executable, the start of the program and the helpers. *)
Theorem object_files_are_made : forall H fold w src ts tree s l fresh filename m binary debug M,
  checked_program w src ts tree s l -> renames fresh -> module_name filename m -> apart (s_syms s) binary l ->
  gen_module H fold (s_syms s) debug l = Ok M ->
  exists T, object_file H fold fresh filename binary debug (s_syms s) l M T /\ NoDup (map en_name T).
Proof. exact files_made. Qed.
Print Assumptions object_files_are_made.
Example object_files_are_made_ex : forall binary, exists T,
  object_file toy unfolded ones (u "lib/shapes.sk") binary false (s_syms (state_of plain shapes)) (checked_of plain shapes) (code_of shapes) T /\ NoDup (map en_name T).
Proof.
  intro binary. exact (object_files_are_made toy unfolded plain shapes (tokens_of shapes) (tree_of plain shapes) (state_of plain shapes) (checked_of plain shapes) ones
    (u "lib/shapes.sk") (u "shapes") binary false (code_of shapes) shapes_checked ones_rename shapes_named (shapes_apart binary) (proj1 (shapes_file binary))).
Qed.

Theorem object_files_define : forall H fold w src ts tree s l fresh filename m binary debug M T n,
  checked_program w src ts tree s l -> renames fresh -> module_name filename m -> apart (s_syms s) binary l ->
  object_file H fold fresh filename binary debug (s_syms s) l M T ->
  (defines T n <-> n = chr "." :: m \/
    (exists k, In k (declared (s_syms s) l) /\ exported (s_syms s) k = true /\ n = m ++ chr "." :: name_of (s_syms s) k) \/
    binary = true /\ In n start_names).
Proof. exact files_define. Qed.
Print Assumptions object_files_define.
Example object_files_define_ex : forall n,
  (defines (names_in (u "lib/shapes.sk") true shapes) n ->
    In n [u ".shapes"; u "shapes.limit"; u "shapes.area"; u "_start"; u "_strcmp"; u "_int_pow"; u "_float_pow"]) /\
  defines (names_in (u "lib/shapes.sk") false shapes) (u "shapes.area") /\ ~ defines (names_in (u "lib/shapes.sk") false shapes) (u "_start").
Proof.
  intro n. assert (TH := fun b => object_files_define toy unfolded plain shapes (tokens_of shapes) (tree_of plain shapes) (state_of plain shapes) (checked_of plain shapes) ones
    (u "lib/shapes.sk") (u "shapes") b false (code_of shapes) (names_in (u "lib/shapes.sk") b shapes)).
  assert (DS : declared (s_syms (state_of plain shapes)) (checked_of plain shapes) = [1; 3; 5; 6; 9; 11]%nat) by (vm_compute; reflexivity).
  split; [|split].
  - intro D. apply (TH true n shapes_checked ones_rename shapes_named (shapes_apart true) (shapes_file true)) in D as [->|[(k & I & X & ->)|(_ & I)]]; [now left| |].
    + rewrite DS in I. repeat destruct I as [<-|I]; try destruct I; vm_compute in X; try discriminate X; vm_compute; auto.
    + do 3 right. exact I.
  - apply (TH false _ shapes_checked ones_rename shapes_named (shapes_apart false) (shapes_file false)). right. left. exists 6%nat. rewrite DS. split; [cbn; auto|]. split; vm_compute; reflexivity.
  - intro D. apply (TH false _ shapes_checked ones_rename shapes_named (shapes_apart false) (shapes_file false)) in D as [D|[(k & I & X & D)|(D & _)]]; [discriminate D| |discriminate D].
    rewrite DS in I. repeat destruct I as [<-|I]; try destruct I; vm_compute in D; discriminate D.
Qed.

(** It asks for the external functions that are called, for the helpers that are used if they
    are not in the file, and in an executable for `exit` and `pow`. *)
Theorem object_files_ask : forall H fold w src ts tree s l fresh filename m binary debug M T n,
  checked_program w src ts tree s l -> renames fresh -> module_name filename m -> apart (s_syms s) binary l ->
  object_file H fold fresh filename binary debug (s_syms s) l M T ->
  (asks M T n <->
    (exists k, In k (declared (s_syms s) l) /\ external (s_syms s) k = true /\ calls M (CSym k) /\ n = name_of (s_syms s) k) \/
    (binary = false /\ exists f, calls M f /\ helper_name f n) \/
    binary = true /\ In n [u "exit"; u "pow"]).
Proof. exact files_ask. Qed.
Print Assumptions object_files_ask.
Lemma shapes_calls : calls (code_of shapes) CStrcmp /\ calls (code_of shapes) CIntPow /\ calls (code_of shapes) (CSym 1).
Proof.
  repeat split; apply calls_of; vm_compute; reflexivity.
Qed.
Example object_files_ask_ex :
  asks (code_of shapes) (names_in (u "lib/shapes.sk") true shapes) (u "say") /\ asks (code_of shapes) (names_in (u "lib/shapes.sk") true shapes) (u "exit") /\
  ~ asks (code_of shapes) (names_in (u "lib/shapes.sk") true shapes) (u "_strcmp") /\
  asks (code_of shapes) (names_in (u "lib/shapes.sk") false shapes) (u "_strcmp") /\ ~ asks (code_of shapes) (names_in (u "lib/shapes.sk") false shapes) (u "never").
Proof.
  assert (TH := fun b => object_files_ask toy unfolded plain shapes (tokens_of shapes) (tree_of plain shapes) (state_of plain shapes) (checked_of plain shapes) ones
    (u "lib/shapes.sk") (u "shapes") b false (code_of shapes) (names_in (u "lib/shapes.sk") b shapes)).
  assert (DS : declared (s_syms (state_of plain shapes)) (checked_of plain shapes) = [1; 3; 5; 6; 9; 11]%nat) by (vm_compute; reflexivity).
  destruct shapes_calls as (C1 & C2 & C3). repeat split.
  - apply (TH true _ shapes_checked ones_rename shapes_named (shapes_apart true) (shapes_file true)). left. exists 1%nat. rewrite DS. split; [now left|]. split; [vm_compute; reflexivity|]. split; [exact C3|vm_compute; reflexivity].
  - apply (TH true _ shapes_checked ones_rename shapes_named (shapes_apart true) (shapes_file true)). right. right. split; [reflexivity|now left].
  - intro K. apply (TH true _ shapes_checked ones_rename shapes_named (shapes_apart true) (shapes_file true)) in K as [(k & I & _ & _ & E)|[(E & _)|(_ & I)]]; [|discriminate E|].
    + rewrite DS in I. repeat destruct I as [<-|I]; try destruct I; vm_compute in E; discriminate E.
    + destruct I as [I|[I|[]]]; discriminate I.
  - apply (TH false _ shapes_checked ones_rename shapes_named (shapes_apart false) (shapes_file false)). right. left. split; [reflexivity|]. exists CStrcmp. split; [exact C1|constructor].
  - intro K. apply (TH false _ shapes_checked ones_rename shapes_named (shapes_apart false) (shapes_file false)) in K as [(k & I & _ & C & E)|[(_ & f & _ & E)|(E & _)]]; [|inversion E|discriminate E].
    rewrite DS in I. repeat destruct I as [<-|I]; try destruct I; vm_compute in E; try discriminate E. apply calls_dec in C. vm_compute in C. discriminate C.
Qed.

(** C65: the object files of two modules never define the same name, if at most one is for an
    executable and neither is a dot file. *)
Theorem object_files_fit : forall H fold1 fold2 w1 src1 ts1 tree1 s1 l1 w2 src2 ts2 tree2 s2 l2 fresh file1 file2 m1 m2 b1 b2 d1 d2 M1 M2 T1 T2 n,
  checked_program w1 src1 ts1 tree1 s1 l1 -> checked_program w2 src2 ts2 tree2 s2 l2 -> renames fresh ->
  module_name file1 m1 -> module_name file2 m2 -> m1 <> m2 -> ~ dot_file m1 -> ~ dot_file m2 -> b1 && b2 = false ->
  apart (s_syms s1) b1 l1 -> apart (s_syms s2) b2 l2 ->
  object_file H fold1 fresh file1 b1 d1 (s_syms s1) l1 M1 T1 -> object_file H fold2 fresh file2 b2 d2 (s_syms s2) l2 M2 T2 ->
  defines T1 n -> defines T2 n -> False.
Proof. exact files_fit. Qed.
Print Assumptions object_files_fit.
Example object_files_fit_ex : forall n,
  defines (names_in (u "lib/shapes.sk") true shapes) n -> defines (names_in (u "tools.sk") false tools) n -> False.
Proof.
  intro n. refine (object_files_fit toy unfolded unfolded plain shapes (tokens_of shapes) (tree_of plain shapes) (state_of plain shapes) (checked_of plain shapes)
    plain tools (tokens_of tools) (tree_of plain tools) (state_of plain tools) (checked_of plain tools) ones (u "lib/shapes.sk") (u "tools.sk") (u "shapes") (u "tools")
    true false false false (code_of shapes) (code_of tools) (names_in (u "lib/shapes.sk") true shapes) (names_in (u "tools.sk") false tools) n
    shapes_checked tools_checked ones_rename shapes_named tools_named _ _ _ eq_refl (shapes_apart true) tools_apart (shapes_file true) tools_file).
  - intro E. vm_compute in E. discriminate E.
  - intros [E|(r & E)]; vm_compute in E; discriminate E.
  - intros [E|(r & E)]; vm_compute in E; discriminate E.
Qed.

(** But no object file has what another asks for, save the helpers in the file of an
    executable: what is exported has a dot in its name, and external functions have none. *)
Theorem object_files_serve : forall H fold1 fold2 w1 src1 ts1 tree1 s1 l1 w2 src2 ts2 tree2 s2 l2 fresh file1 file2 m1 m2 b1 b2 d1 d2 M1 M2 T1 T2 n,
  checked_program w1 src1 ts1 tree1 s1 l1 -> checked_program w2 src2 ts2 tree2 s2 l2 -> renames fresh ->
  module_name file1 m1 -> module_name file2 m2 ->
  apart (s_syms s1) b1 l1 -> apart (s_syms s2) b2 l2 ->
  object_file H fold1 fresh file1 b1 d1 (s_syms s1) l1 M1 T1 -> object_file H fold2 fresh file2 b2 d2 (s_syms s2) l2 M2 T2 ->
  asks M1 T1 n -> defines T2 n -> b1 = false /\ b2 = true /\ exists f, calls M1 f /\ helper_name f n.
Proof. exact files_serve. Qed.
Print Assumptions object_files_serve.
Example object_files_serve_ex : forall n,
  asks (code_of tools) (names_in (u "tools.sk") false tools) n -> defines (names_in (u "lib/shapes.sk") true shapes) n -> exists f, calls (code_of tools) f /\ helper_name f n.
Proof.
  intros n K D. refine (proj2 (proj2 (object_files_serve toy unfolded unfolded plain tools (tokens_of tools) (tree_of plain tools) (state_of plain tools) (checked_of plain tools)
    plain shapes (tokens_of shapes) (tree_of plain shapes) (state_of plain shapes) (checked_of plain shapes) ones (u "tools.sk") (u "lib/shapes.sk") (u "tools") (u "shapes")
    false true false false (code_of tools) (code_of shapes) (names_in (u "tools.sk") false tools) (names_in (u "lib/shapes.sk") true shapes) n
    tools_checked shapes_checked ones_rename tools_named shapes_named tools_apart (shapes_apart true) tools_file (shapes_file true) K D))).
Qed.

(** * Names that collide *)

Definition definesb (T : list entry) (n : text) : bool := existsb (fun e => negb (en_private e) && en_body e && text_eqb (en_name e) n) T.
Definition asksb (T : list entry) (n : text) : bool := existsb (fun e => negb (en_private e) && negb (en_body e) && text_eqb (en_name e) n) T.
Lemma definesb_false : forall T n, definesb T n = false -> ~ defines T n.
Proof.
  intros T n E (e & I & P & B & N0). assert (Z : definesb T n = true) by (apply existsb_exists; exists e; rewrite P, B, N0, text_eqb_refl; auto). congruence.
Qed.
Lemma asksb_false : forall H (M : module H) T n, asksb T n = false -> ~ asks M T n.
Proof.
  intros H M T n E (e & I & P & B & _ & N0). assert (Z : asksb T n = true) by (apply existsb_exists; exists e; rewrite P, B, N0, text_eqb_refl; auto). congruence.
Qed.

(** An executable whose program declares `exit` as an external function: `_start` calls
    something else. All other conditions hold. *)
Theorem exit_is_there_refuted : exists M T,
  checked_program plain exits (tokens_of exits) (tree_of plain exits) (state_of plain exits) (checked_of plain exits) /\
  object_file toy unfolded ones (u "a.sk") true false (s_syms (state_of plain exits)) (checked_of plain exits) M T /\
  apart (s_syms (state_of plain exits)) false (checked_of plain exits) /\
  exists n, asks M T n /\ n <> u "exit" /\ (exists d, n = u "exit." ++ d).
Proof.
  exists (code_of exits), (names_in (u "a.sk") true exits). split; [checked exits|]. split; [apply makes_file; vm_compute; reflexivity|]. split; [apply apart_of; vm_compute; reflexivity|].
  eexists. split; [|split].
  - eexists. split; [apply nth_error_In with (n := 3%nat); vm_compute; reflexivity|]. repeat split. right. exact I.
  - vm_compute. discriminate.
  - eexists. vm_compute. reflexivity.
Qed.
Print Assumptions exit_is_there_refuted.

(** A function of a namespace takes away the name of an external function. *)
Theorem externals_are_asked_refuted : exists M T k,
  checked_program plain shadowed (tokens_of shadowed) (tree_of plain shadowed) (state_of plain shadowed) (checked_of plain shadowed) /\
  object_file toy unfolded ones (u "a.sk") false false (s_syms (state_of plain shadowed)) (checked_of plain shadowed) M T /\
  In k (declared (s_syms (state_of plain shadowed)) (checked_of plain shadowed)) /\ external (s_syms (state_of plain shadowed)) k = true /\ calls M (CSym k) /\
  name_of (s_syms (state_of plain shadowed)) k = u "say" /\ ~ asks M T (u "say").
Proof.
  exists (code_of shadowed), (names_in (u "a.sk") false shadowed), 3%nat. split; [checked shadowed|]. split; [apply makes_file; vm_compute; reflexivity|].
  split; [vm_compute; auto|]. split; [vm_compute; reflexivity|]. split; [apply calls_of; vm_compute; reflexivity|]. split; [vm_compute; reflexivity|].
  apply asksb_false. vm_compute. reflexivity.
Qed.
Print Assumptions externals_are_asked_refuted.

(** Two blocks may export variables of one name; the second is exported under another name. *)
Theorem exports_are_defined_refuted : exists M T e,
  checked_program plain twice_there (tokens_of twice_there) (tree_of plain twice_there) (state_of plain twice_there) (checked_of plain twice_there) /\
  object_file toy unfolded ones (u "a.sk") false false (s_syms (state_of plain twice_there)) (checked_of plain twice_there) M T /\
  In e T /\ en_private e = false /\ en_body e = true /\ (exists d, en_name e = u "a.x." ++ d).
Proof.
  exists (code_of twice_there), (names_in (u "a.sk") false twice_there). eexists. split; [checked twice_there|]. split; [apply makes_file; vm_compute; reflexivity|].
  split; [apply nth_error_In with (n := 2%nat); vm_compute; reflexivity|]. repeat split. eexists. vm_compute. reflexivity.
Qed.
Print Assumptions exports_are_defined_refuted.
