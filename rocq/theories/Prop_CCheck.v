(** C compilers accept the C files of accepted programs. *)
From Coq Require Import List Arith NArith ZArith Bool Lia Ascii String.
From Verif Require Import Base Model_Token Model_Literal Model_Parse Spec_Parse Model_Sem Spec_Sem Spec_Sem2 Proof_Sem Proof_SemEx
  Prop_Sem Prop_Sem2 Model_Names Spec_Names Model_CGen Model_CFile Spec_C Spec_CGen Proof_C2 Proof_CGen2 Spec_CProg Spec_CBack Prop_CProg
  Spec_Run Spec_LLVM Spec_Loops Spec_Safe Proof_RunEx Prop_LLVM Prop_LLVM2 Prop_Safe Proof_CProg3 Spec_CRun Spec_CBehave Proof_CRunEx Proof_CRunEx2 Prop_CRun
  Spec_CCheck Spec_CReady Proof_CCheck4.
Import ListNotations.
Open Scope string_scope.
Open Scope list_scope.
Open Scope N_scope.

(** C63: the C file of an accepted program meets the constraints of C, whatever names the
    headers declare and whether the compiler takes pointers to constants seriously or not. *)
Theorem c_files_compile : forall w src ts tree s l env c23 strict headers m t,
  accepted w src ts tree s l -> no_call_blocks tree -> few_arguments tree -> flat tree -> has_statements tree ->
  no_references l -> comparable l -> ints_returned tree l -> nothing_returned (s_syms s) l -> plain_aliases tree l ->
  ce_syms env = s_syms s -> writable c23 env l -> c_ready strict headers env l ->
  has_base (ce_file env) (m ++ u ".sk") -> nz m -> Spec_Names.fits m -> c_file env l = Ok t ->
  exists hs ds, is_c_file c23 t hs ds /\ compiles_as strict headers hs ds.
Proof. exact (c_compiles_l toy). Qed.
Print Assumptions c_files_compile.

(** A way to check the last hypothesis about the program. *)
Definition names_string (env : cctx) (l : list tnode) (x : texpr) : bool :=
  match x with
  | XVar _ k _ _ => negb (mutable (ce_syms env) k) &&
      existsb (fun n => match tn_pay n with XDef j y => Nat.eqb j k && match x_ty y with TStr | TRef _ => true | _ => false end | _ => false end) (flat_map tnodes l)
  | _ => false
  end.
Lemma names_string_of : forall env l x, names_string env l x = false -> ~ named_string env l x.
Proof.
  intros env l x E (t & k & ty & c & n & y & -> & MU & C & P & T). cbn [names_string] in E. rewrite MU in E. cbn [negb andb] in E.
  assert (X : existsb (fun n => match tn_pay n with XDef j y => Nat.eqb j k && match x_ty y with TStr | TRef _ => true | _ => false end | _ => false end) (flat_map tnodes l) = true).
  { apply existsb_exists. exists n. split; [exact (in_checked_tnodes _ _ C)|]. rewrite P, Nat.eqb_refl. cbn [andb]. destruct T as [-> |(r & ->)]; reflexivity. }
  rewrite X in E. discriminate E.
Qed.
Definition readyb (strict : bool) (headers : list text) (env : cctx) (l : list tnode) : bool :=
  forallb (fun n => negb (is_type N_NAMESPACE n)) (flat_map tnodes l) &&
  forallb (fun n => forallb (fun m => negb (is_type N_FUNCTION_PROTO m)) (flat_map tnodes (tn_child n))) l &&
  nodupb (map (name_of env) (flat_map outside l)) &&
  forallb (fun k => negb (inb (name_of env k) (map u ["main"; "init"; "_strcmp"; "_int_pow"; "_float_pow"]))) (flat_map outside l) &&
  forallb (fun y => match y_kind y with KVar _ | KFunc _ => negb (inb (y_name y) headers) | _ => true end) (ce_syms env) &&
  negb (inb (u "main") headers) && negb (inb (u "init") headers) &&
  forallb (fun n => match tn_pay n with XDef k y => negb (x_cexpr y) || forallb constant_partb (xparts y) | _ => true end) (l ++ flat_map tn_child l) &&
  forallb (fun p => match p with XBin BMod _ _ TFloat _ => false | _ => true end) (exprs l) &&
  forallb fine_symbol (ce_syms env) &&
  forallb (fun n => negb (is_type N_RETURN n) || match tn_pay n with XExpr e => match x_ty e with TVoid => false | _ => true end | _ => true end) (flat_map tnodes l) &&
  (negb strict || forallb (fun n => match checked_expr n with Some x =>
      negb ((is_type N_VAR_DEF n || is_type N_VAR_ASSIGN n || is_type N_RETURN n) && names_string env l x) | None => true end) (flat_map tnodes l)) &&
  (negb strict || forallb (fun p => match p with XCall _ _ args _ => forallb (fun x => negb (names_string env l x)) args | _ => true end) (exprs l)).
Lemma readyb_sound : forall strict headers env l, readyb strict headers env l = true -> c_ready strict headers env l.
Proof.
  intros strict headers env l E. unfold readyb in E. repeat (match type of E with (_ && _)%bool = true => apply andb_true_iff in E as (E & ?) end).
  repeat match goal with X : forallb _ _ = true |- _ => rewrite forallb_forall in X end.
  match goal with X : forall n, In n l -> forallb _ (flat_map tnodes (tn_child n)) = true |- _ => rename X into FU end.
  match goal with X : forall n, In n (l ++ _)%list -> _ |- _ => rename X into CO end.
  match goal with X : forall p, In p (exprs l) -> match p with XBin _ _ _ _ _ => _ | _ => _ end = true |- _ => rename X into MO end.
  match goal with X : forall y, In y (ce_syms env) -> fine_symbol y = true |- _ => rename X into SY end.
  match goal with X : forall y, In y (ce_syms env) -> match y_kind y with KVar _ => _ | _ => _ end = true |- _ => rename X into HE end.
  match goal with X : forall n, In n (flat_map tnodes l) -> (negb (is_type N_RETURN n) || _)%bool = true |- _ => rename X into RE end.
  match goal with X : nodupb _ = true |- _ => rename X into ND end.
  match goal with X : forall k, In k (flat_map outside l) -> _ |- _ => rename X into TK end.
  match goal with X : negb (inb (u "main") _) = true |- _ => rename X into M1; apply negb_true_iff, inb_false in M1 end.
  match goal with X : negb (inb (u "init") _) = true |- _ => rename X into M2; apply negb_true_iff, inb_false in M2 end.
  constructor.
  - intros n C T. specialize (E n (in_checked_tnodes _ _ C)). rewrite (is_type_yes _ _ T) in E. discriminate E.
  - intros n C T. destruct C as [l IN|y l IN C]; [exact IN|]. exfalso. specialize (FU y IN). rewrite forallb_forall in FU. specialize (FU n (in_checked_tnodes _ _ C)).
    rewrite (is_type_yes _ _ T) in FU. discriminate FU.
  - now apply nodupb_nodup.
  - intros k IN. specialize (TK k IN). apply negb_true_iff in TK. now apply inb_false.
  - intros k y N K. specialize (HE y (nth_error_In _ _ N)). destruct K as [(v & K)|(f & K)]; rewrite K in HE; apply negb_true_iff in HE; now apply inb_false.
  - split; assumption.
  - intros n k y p IN P C PA. assert (I : In n (l ++ flat_map tn_child l)%list).
    { apply in_app_iff. destruct IN as [IN|(m & IM & _ & IN)]; [now left|right]. apply in_flat_map. exists m. split; assumption. }
    specialize (CO n I). rewrite P, C in CO. cbn [negb orb] in CO. rewrite forallb_forall in CO. apply constant_partb_sound, CO, xpart_xparts, PA.
  - intros n a b c C U. specialize (MO _ (uses_exprs _ _ _ C U)). discriminate MO.
  - intros k x v (y & N & _ & K) T. specialize (SY y (nth_error_In _ _ N)). unfold fine_symbol in SY. rewrite K, T in SY. discriminate SY.
  - intros n e C T P X. specialize (RE n (in_checked_tnodes _ _ C)). rewrite (is_type_yes _ _ T), P, X in RE. discriminate RE.
  - intros k x v h (y & N & <- & K) X. specialize (SY y (nth_error_In _ _ N)). unfold fine_symbol in SY. rewrite K in SY.
    assert (Z0 : existsb (fun h => text_eqb (y_name y) (helper_name h)) [HStrcmp; HIntPow; HFloatPow] = true).
    { apply existsb_exists. exists h. split; [destruct h; cbn; auto|now apply text_eqb_eq]. }
    rewrite Z0 in SY. destruct (v_type v); discriminate SY.
  - intros -> n C. repeat match goal with X : (negb true || _)%bool = true |- _ => cbn [negb orb] in X; rewrite forallb_forall in X end.
    match goal with X : forall n, In n (flat_map tnodes l) -> match checked_expr n with Some _ => _ | None => _ end = true |- _ => rename X into S1 end.
    match goal with X : forall p, In p (exprs l) -> match p with XCall _ _ _ _ => _ | _ => _ end = true |- _ => rename X into S2 end. split.
    + intros x T CE. apply names_string_of. specialize (S1 n (in_checked_tnodes _ _ C)). rewrite CE in S1. apply negb_true_iff in S1.
      assert (Y : (is_type N_VAR_DEF n || is_type N_VAR_ASSIGN n || is_type N_RETURN n)%bool = true).
      { destruct T as [T|[T|[T|[]]]]; symmetry in T; rewrite (is_type_yes _ _ T), ?orb_true_r; reflexivity. }
      rewrite Y in S1. exact S1.
    + intros t k args ty x U IN. apply names_string_of. specialize (S2 _ (uses_exprs _ _ _ C U)). cbn beta iota in S2. rewrite forallb_forall in S2. apply negb_true_iff, S2, IN.
Qed.

(** Names that <stdint.h>, <uchar.h> and <math.h> declare (7.12, 7.20, 7.28; some of them). *)
Definition standard : list text := map u ["int8_t"; "int64_t"; "uint8_t"; "intmax_t"; "INT64_MAX"; "char16_t"; "char32_t"; "mbstate_t"; "size_t"; "mbrtoc32"; "c32rtomb";
  "pow"; "sqrt"; "sin"; "cos"; "log"; "exp"; "floor"; "NAN"; "INFINITY"].
(** Functions with and without results, strings, runes, booleans, floats and powers of all kinds,
    variables in all places, loops and calls from outside. *)
Definition goods : text :=
  line "external say(what: Str)" ++
  line "external put(x: Int)" ++
  line "mut total := 0" ++
  line "limit := 4 * 5" ++
  line "mark := 'x'" ++
  line "rate := 0.5 + 1.5" ++
  line "mut done := not true" ++
  line "square(x: Float) Float {" ++
  line "  return x ^ rate" ++
  line "}" ++
  line "greet(name: Str, times: Int) {" ++
  line "  mut i := times" ++
  line "  while i > 0 {" ++
  line "    say(name)" ++
  line "    i = i - 1" ++
  line "    if i > 100 {" ++
  line "      break" ++
  line "    }" ++
  line "  }" ++
  line "}" ++
  line "fact(n: Int) Int {" ++
  line "  one := 1" ++
  line "  if n < 2 {" ++
  line "    return one" ++
  line "  }" ++
  line "  return n * fact(n - one)" ++
  line "}" ++
  line "mut who := ""you""" ++
  line "if who is ""me"" {" ++
  line "  greet(""me"", fact(3))" ++
  line "}" ++
  line "elif mark is 'y' {" ++
  line "  mut f := square(2.0)" ++
  line "  f = f * rate" ++
  line "}" ++
  line "else {" ++
  line "  mut k := fact(4)" ++
  line "  k = k ^ 2" ++
  line "  done = k > limit" ++
  line "  put(k)" ++
  line "  who = ""them""" ++
  line "}" ++
  line "while total < limit {" ++
  line "  total = total + fact(2)" ++
  line "}" ++
  line "greet(who, total)" ++
  line "return total".
Example c_files_compile_ex :
  accepted plain goods (tokens_of goods) (tree_of plain goods) (state_of plain goods) (checked_of plain goods) /\ c_ready true standard (file goods) (checked_of plain goods) /\
  exists t hs ds, c_file (file goods) (checked_of plain goods) = Ok t /\ is_c_file true t hs ds /\ compiles_as true standard hs ds.
Proof.
  assert (A : accepted plain goods (tokens_of goods) (tree_of plain goods) (state_of plain goods) (checked_of plain goods)) by (apply compiles_accepted; vm_compute; reflexivity).
  assert (NC : no_call_blocks (tree_of plain goods)) by (apply no_call_blocks_of; vm_compute; reflexivity).
  assert (FA : few_arguments (tree_of plain goods)) by (apply few_arguments_of; vm_compute; reflexivity).
  assert (FL : flat (tree_of plain goods)) by (apply flat_of; vm_compute; reflexivity).
  assert (HS : has_statements (tree_of plain goods)) by (apply has_statements_of; vm_compute; reflexivity).
  assert (NR : no_references (checked_of plain goods)) by (apply no_references_of; vm_compute; reflexivity).
  assert (CM : comparable (checked_of plain goods)) by (apply comparable_of; vm_compute; reflexivity).
  assert (IR : ints_returned (tree_of plain goods) (checked_of plain goods)) by (apply ints_returned_of; vm_compute; reflexivity).
  assert (NT : nothing_returned (s_syms (state_of plain goods)) (checked_of plain goods)) by (apply nothing_returned_of; vm_compute; reflexivity).
  assert (PA : plain_aliases (tree_of plain goods) (checked_of plain goods)) by (apply plain_aliases_of; vm_compute; reflexivity).
  assert (ES : ce_syms (file goods) = s_syms (state_of plain goods)) by (unfold file; cbn [ce_syms]; reflexivity).
  assert (W : writable true (file goods) (checked_of plain goods)) by (apply writable_of2; [exact (file_plain goods)|vm_compute; reflexivity..]).
  assert (B : has_base (ce_file (file goods)) (u "busy" ++ u ".sk")) by (unfold file; cbn [ce_file]; exact busy_base).
  assert (R : c_ready true standard (file goods) (checked_of plain goods)) by (apply readyb_sound; vm_compute; reflexivity).
  split; [exact A|]. split; [exact R|].
  destruct (c_file (file goods) (checked_of plain goods)) as [t|] eqn:E; [|exfalso; vm_compute in E; discriminate E].
  destruct (c_files_compile plain goods (tokens_of goods) (tree_of plain goods) (state_of plain goods) (checked_of plain goods) (file goods) true true standard (u "busy") t
    A NC FA FL HS NR CM IR NT PA ES W R B) as (hs & ds & I & C).
  - repeat constructor; discriminate.
  - reflexivity.
  - exact E.
  - exists t, hs, ds. exact (conj eq_refl (conj I C)).
Qed.

(** * Each part of `c_ready` is needed *)

(** What the theorem asks for, `c_ready` left out. *)
Definition given (src t : text) : Prop :=
  accepted plain src (tokens_of src) (tree_of plain src) (state_of plain src) (checked_of plain src) /\
  no_call_blocks (tree_of plain src) /\ few_arguments (tree_of plain src) /\ flat (tree_of plain src) /\ has_statements (tree_of plain src) /\
  no_references (checked_of plain src) /\ comparable (checked_of plain src) /\ ints_returned (tree_of plain src) (checked_of plain src) /\
  nothing_returned (s_syms (state_of plain src)) (checked_of plain src) /\ plain_aliases (tree_of plain src) (checked_of plain src) /\
  writable true (file src) (checked_of plain src) /\ c_file (file src) (checked_of plain src) = Ok t.
(** The C file can be read, but it does not meet the constraints. *)
Definition refused (strict : bool) (headers : list text) (src : text) : Prop := exists t, given src t /\
  (exists hs ds, is_c_file true t hs ds) /\ forall hs ds, is_c_file true t hs ds -> ~ compiles_as strict headers hs ds.
Definition givenb (src : text) : bool :=
  compiles plain src && no_call_blocksb (tree_of plain src) && few_argumentsb (tree_of plain src) && flatb (tree_of plain src) && has_statementsb (tree_of plain src) &&
  no_referencesb (checked_of plain src) && comparableb (checked_of plain src) && ints_returnedb (tree_of plain src) (checked_of plain src) &&
  nothing_returnedb (s_syms (state_of plain src)) (checked_of plain src) && plain_aliasesb (tree_of plain src) (checked_of plain src) &&
  forallb (writable_symbolb true) (tl (ce_syms (file src))) &&
  forallb (fun n => match checked_expr n with Some e => forallb (printable_partb (file src)) (xparts e) | None => true end) (flat_map nodes (checked_of plain src)) &&
  forallb (fun y => match y_kind y with KFunc f => negb (f_external f) | _ => true end) (ce_syms (file src)) && readable src.
Definition compilesb (strict : bool) (headers : list text) (ds : list cdef) : bool :=
  match check_defs strict headers (helper_scope []) ds with Some g => complete g | None => false end.
Lemma refused_of : forall strict headers src, givenb src = true -> compilesb strict headers (unit_of src) = false -> refused strict headers src.
Proof.
  intros strict headers src E NO. unfold givenb in E. repeat (match type of E with (_ && _)%bool = true => apply andb_true_iff in E as (E & ?) end).
  match goal with X : readable src = true |- _ => destruct (readable_file src X) as (t & CF & IS) end. exists t.
  assert (A : accepted plain src (tokens_of src) (tree_of plain src) (state_of plain src) (checked_of plain src)) by now apply compiles_accepted.
  assert (NC : no_call_blocks (tree_of plain src)) by now apply no_call_blocks_of.
  assert (FA : few_arguments (tree_of plain src)) by now apply few_arguments_of.
  assert (W : writable true (file src) (checked_of plain src)) by (apply writable_of; [exact (file_plain src)|assumption|reflexivity|assumption|assumption]).
  split; [|split].
  - split; [exact A|]. split; [exact NC|]. split; [exact FA|]. split; [now apply flat_of|]. split; [now apply has_statements_of|]. split; [now apply no_references_of|].
    split; [now apply comparable_of|]. split; [now apply ints_returned_of|]. split; [now apply nothing_returned_of|]. split; [now apply plain_aliases_of|]. split; [exact W|exact CF].
  - destruct (generated_files_read_back plain src (tokens_of src) (tree_of plain src) (state_of plain src) (checked_of plain src) (file src) true (u "busy") t A NC FA eq_refl W) as (hs & ds & I & _);
      [exact busy_base|repeat constructor; discriminate|reflexivity|exact CF|]. exists hs, ds. exact I.
  - intros hs ds IC C. destruct (IS hs ds IC) as (-> & ->). unfold compiles_as in C. unfold compilesb in NO. destruct (check_defs strict headers (helper_scope []) (unit_of src)); [congruence|exact C].
Qed.
(** Variables of namespaces are declared in blocks. *)
Definition c_space : text := line "one := 1" ++ line "namespace a {" ++ line "  mut x := 1" ++ line "}" ++ line "return a.x".
(** Variables of functions are put outside of them. *)
Definition c_twice : text := line "f() Int {" ++ line "  x := 1" ++ line "  return x" ++ line "}" ++ line "g() Int {" ++ line "  x := 2" ++ line "  return x" ++ line "}" ++ line "return f() + g()".
(** Names that are taken by the code in front and behind, and by headers. *)
Definition c_taken : text := line "init := 1" ++ line "return init".
Definition c_header : text := line "mbrtoc32 := 1" ++ line "return mbrtoc32".
(** A remainder of floats, a parameter without a value, and such a result. *)
Definition c_mod : text := line "mut f := 1.5" ++ line "f = f mod 2.5" ++ line "return 0".
Definition c_param : text := line "one := 1" ++ line "f(x: Void) Int {" ++ line "  return 1" ++ line "}" ++ line "return 0".
Definition c_result : text := line "mut k := 1" ++ line "f() {" ++ line "  k = 2" ++ line "}" ++ line "g() {" ++ line "  if k is 1 {" ++ line "    return f()" ++ line "  }" ++ line "}" ++ line "g()" ++ line "return k".
(** A string constant that is copied. *)
Definition c_string : text := line "s := ""a""" ++ line "f() Str {" ++ line "  return s" ++ line "}" ++ line "mut x := f()" ++ line "x = ""b""" ++ line "return 0".
Theorem c_files_compile_refuted :
  refused false [] c_space /\ refused false [] c_twice /\ refused false [] c_taken /\ refused false standard c_header /\ refused false [] copied /\
  refused false [] c_mod /\ refused false [] c_param /\ refused false [] c_result /\ refused true [] c_string.
Proof. repeat split; (apply refused_of; vm_compute; reflexivity). Qed.
Print Assumptions c_files_compile_refuted.
