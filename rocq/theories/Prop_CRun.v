(** What holds for C files when they are compiled and run. *)
From Coq Require Import List Arith NArith ZArith Bool Lia Ascii String.
From Verif Require Import Base Model_Token Model_Literal Model_Parse Spec_Parse Model_Sem Spec_Sem Spec_Sem2 Proof_Sem Proof_SemEx
  Prop_Sem Model_Names Spec_Names Model_CGen Model_CFile Spec_C Spec_CGen Proof_C2 Proof_CGen2 Spec_CProg Spec_CBack Prop_CProg
  Spec_Run Spec_IR Model_LLVM Spec_LLVM Proof_RunEx Prop_LLVM Proof_CProg3 Spec_CRun Spec_CBehave Proof_CRunEx Proof_CRunEx2 Proof_CRun10 Proof_CRun11.
Import ListNotations.
Open Scope list_scope.
Open Scope N_scope.

(** C57: the C file of an accepted program, compiled and run, ends with the exit code that the
    program has after Spec_Run.v (as an `int`), calls the same functions from outside in the same order with the
    same arguments, has no other result, and does nothing that C leaves undefined. *)
Theorem c_files_behave : forall H M w src ts tree s l env c23 m t o code o',
  accepted w src ts tree s l -> no_call_blocks tree -> few_arguments tree -> no_references l -> plain_aliases tree l ->
  ce_syms env = s_syms s -> writable c23 env l -> has_base (ce_file env) (m ++ u ".sk") -> nz m -> Spec_Names.fits m -> c_file env l = Ok t ->
  behaved H env M l -> numbers_agree H env M -> links_agree H env M ->
  exits H (s_syms s) (c_exact1 H) (c_exact2 H) l o code o' ->
  exists hs ds, is_c_file c23 t hs ds /\ c_exits H M hs ds o (wrap32 code) o' /\
    forall code2 o2, c_exits H M hs ds o code2 o2 -> code2 = wrap32 code /\ o2 = o'.
Proof.
  intros H M w src ts tree s l env c23 m t o code o' A NC FA NR PA ES W HB NZ FI CF BH NA LA EX. rewrite <- ES in EX.
  destruct (c_behaves_l H env M w src ts tree s l c23 A NC FA ES W NR m t o code o' HB NZ FI CF PA BH NA LA EX) as (hs & ds & IC & CE).
  exists hs, ds. split; [exact IC|]. split; [exact CE|]. intros code2 o2. exact (c_exits_one _ _ _ _ _ _ _ _ _ CE).
Qed.
Print Assumptions c_files_behave.

(** A machine for the examples: the outside keeps the calls, and a header declares two functions. *)
Definition back (v : cval toy) : sv Z :=
  match v with
  | VI _ CLong z => SvInt z
  | VI _ CUInt z => SvRune (Z.to_N z)
  | VI _ _ z => SvBool (negb (z =? 0)%Z)
  | VD _ f => SvFloat f
  | VS _ s => SvStr s
  | VNull _ | VV _ => SvVoid
  end.
Definition desk : machine toy :=
  mkmachine toy (fun _ => Some 0%Z) (fun _ vs o => Some (VV toy, o ++ [map back vs])) [u "mbrtoc32"; u "c32rtomb"].
Lemma back_in_c : forall v : sv Z, back (in_c toy v) = v.
Proof. intros [z|f|[]|c|s|]; try reflexivity. cbn. now rewrite N2Z.id. Qed.
Definition file (src : text) : cctx := mkcctx (s_syms (state_of plain src)) (fun _ => u "0x1.8p+1") (fun _ => false) (fun _ => None) true (u "busy.sk").
Lemma desk_numbers : forall src, numbers_agree toy (file src) desk.
Proof. intro src. constructor; intros; cbn in *; try reflexivity; discriminate. Qed.
Lemma desk_links : forall src, links_agree toy (file src) desk.
Proof.
  intros src k x f vs o v o' _ _ E. cbn in E. injection E as <- <-. cbn. f_equal. f_equal. f_equal. f_equal. rewrite map_map.
  induction vs as [|v vs IH]; [reflexivity|]. cbn [map]. now rewrite back_in_c, IH.
Qed.
Definition okay3 (o : binop) (a b : sv Z) : bool :=
  match o, a, b with
  | BMod, SvInt x, SvInt y => in64 (Z.quot x y)
  | BMod, SvFloat _, _ => false
  | BPow, SvInt x, SvInt y => (1 <=? y)%Z
  | BLshift, SvInt x, SvInt y => (0 <=? x)%Z && in64 (x * 2 ^ y)
  | BRshift, SvInt x, _ => (0 <=? x)%Z
  | _, _, _ => true
  end.
Lemma okay3_exact : forall o v w, okay3 o v w = true -> c_exact2 toy o v w.
Proof.
  intros o v w E. destruct o; try exact I; destruct v; try exact I; try discriminate E; destruct w; try exact I; cbn in *; auto; try (now apply Z.leb_le);
    apply andb_true_iff in E as (E1 & E2); split; auto; now apply Z.leb_le.
Qed.
Lemma result_exits_c : forall f src z o, Prop_LLVM.result f any1 okay3 src = Some (Some z, o) ->
  exits toy (s_syms (state_of plain src)) (c_exact1 toy) (c_exact2 toy) (checked_of plain src) [] z o.
Proof.
  intros f src z o E. apply (exits_of toy _ _ _ any1 okay3) with (f := f); [intros; exact I|exact okay3_exact|]. unfold Prop_LLVM.result in E.
  destruct (ex toy _ _ _ _ _ _) as [(out, s)|]; [|discriminate E]. injection E as E1 E2. split; assumption.
Qed.
Lemma writable_of2 : forall c23 env l, (forall k t, ce_linkage env k = Some t -> plain_chars t) -> forallb (writable_symbolb c23) (tl (ce_syms env)) = true -> forallb plain_char (ce_file env) = true ->
  forallb (fun n => match checked_expr n with Some e => forallb (printable_partb env) (xparts e) | None => true end) (flat_map nodes l) = true ->
  forallb (fun n => match tn_pay n with XProto k _ => match nth_error (ce_syms env) k with Some (mksym _ _ (KFunc f)) => negb (f_external f) || match tn_child n with [] => true | _ => false end | _ => true end | _ => true end) (flat_map nodes l) = true ->
  writable c23 env l.
Proof.
  intros c23 env l LN WS WF WP WX. split; [|split; [|split; [|split]]].
  - intros k y E. rewrite forallb_forall in WS. assert (I : In y (tl (ce_syms env))) by (destruct (ce_syms env); [discriminate E|exact (nth_error_In _ k E)]).
    specialize (WS y I). unfold writable_symbolb in WS. unfold writable_symbol.
    destruct (y_kind y) as [v|f|a|a]; [| |exact Logic.I|now apply plain_of]; apply andb_prop in WS as (W1 & W2); (split; [now apply usable_of|]); intros ->; apply has_bool_of; now apply negb_true_iff in W2.
  - intros n e I E. rewrite forallb_forall in WP. specialize (WP n (nodes_in _ _ I)). rewrite E in WP. now apply printable_of.
  - exact LN.
  - now apply plain_of.
  - intros n k ks x f I P (y & N & _ & K) EX. rewrite forallb_forall in WX. specialize (WX n (nodes_in _ _ I)). rewrite P, N in WX. destruct y as [a b c]. cbn [y_kind] in K. subst c.
    rewrite EX in WX. cbn [negb orb] in WX. destruct (tn_child n); [reflexivity|discriminate WX].
Qed.
Lemma file_plain : forall src k t, ce_linkage (file src) k = Some t -> plain_chars t.
Proof. intros src k t E. discriminate E. Qed.

(** Functions, also recursive ones, loops, variables in all places, powers, strings, and calls from outside. *)
Definition steps : text :=
  line "external put(x: Int)" ++
  line "mut total := 0" ++
  line "limit := 4 * 5" ++
  line "fact(n: Int) Int {" ++
  line "  if n < 2 {" ++
  line "    return 1" ++
  line "  }" ++
  line "  return n * fact(n - 1)" ++
  line "}" ++
  line "twice(a: Int) Int {" ++
  line "  b := a + 1" ++
  line "  return b * 2" ++
  line "}" ++
  line "sum(to: Int) Int {" ++
  line "  step := 1" ++
  line "  mut i := to" ++
  line "  mut s := to - to" ++
  line "  while i > 0 {" ++
  line "    s = s + i" ++
  line "    i = i - step" ++
  line "    if s > 100 {" ++
  line "      break" ++
  line "    }" ++
  line "  }" ++
  line "  return s" ++
  line "}" ++
  line "mut n := twice(1)" ++
  line "while n < limit {" ++
  line "  put(n)" ++
  line "  n = twice(n)" ++
  line "  total = total + n" ++
  line "}" ++
  line "if ""x"" is ""y"" {" ++
  line "  put(0)" ++
  line "}" ++
  line "else {" ++
  line "  mut k := sum(4)" ++
  line "  k = k ^ 2" ++
  line "  put(k)" ++
  line "}" ++
  line "n = fact(3)" ++
  line "return total - n".
Example c_files_behave_ex :
  accepted plain steps (tokens_of steps) (tree_of plain steps) (state_of plain steps) (checked_of plain steps) /\
  behaved toy (file steps) desk (checked_of plain steps) /\
  exits toy (s_syms (state_of plain steps)) (c_exact1 toy) (c_exact2 toy) (checked_of plain steps) [] 26%Z [[SvInt 4]; [SvInt 10]; [SvInt 100]] /\
  exists t hs ds, c_file (file steps) (checked_of plain steps) = Ok t /\ is_c_file false t hs ds /\
    c_exits toy desk hs ds [] 26%Z [[SvInt 4]; [SvInt 10]; [SvInt 100]].
Proof.
  assert (A : accepted plain steps (tokens_of steps) (tree_of plain steps) (state_of plain steps) (checked_of plain steps)) by (apply compiles_accepted; vm_compute; reflexivity).
  assert (NC : no_call_blocks (tree_of plain steps)) by (apply no_call_blocks_of; vm_compute; reflexivity).
  assert (FA : few_arguments (tree_of plain steps)) by (apply few_arguments_of; vm_compute; reflexivity).
  assert (NR : no_references (checked_of plain steps)) by (apply no_references_of; vm_compute; reflexivity).
  assert (PA : plain_aliases (tree_of plain steps) (checked_of plain steps)) by (apply plain_aliases_of; vm_compute; reflexivity).
  assert (ES : ce_syms (file steps) = s_syms (state_of plain steps)) by (unfold file; cbn [ce_syms]; reflexivity).
  assert (W : writable false (file steps) (checked_of plain steps)) by (apply writable_of2; [exact (file_plain steps)|vm_compute; reflexivity..]).
  assert (B : has_base (ce_file (file steps)) (u "busy" ++ u ".sk")) by (unfold file; cbn [ce_file]; exact busy_base).
  assert (BH : behaved toy (file steps) desk (checked_of plain steps)) by (apply (behavedb_sound toy (file steps) desk okay3 okay3_exact); vm_compute; reflexivity).
  assert (EX : exits toy (s_syms (state_of plain steps)) (c_exact1 toy) (c_exact2 toy) (checked_of plain steps) [] 26%Z [[SvInt 4]; [SvInt 10]; [SvInt 100]])
    by (apply (result_exits_c 200); vm_compute; reflexivity).
  split; [exact A|]. split; [exact BH|]. split; [exact EX|].
  destruct (c_file (file steps) (checked_of plain steps)) as [t|] eqn:E; [|exfalso; vm_compute in E; discriminate E].
  destruct (c_files_behave toy desk plain steps (tokens_of steps) (tree_of plain steps) (state_of plain steps) (checked_of plain steps) (file steps) false (u "busy") t [] 26%Z
    [[SvInt 4]; [SvInt 10]; [SvInt 100]] A NC FA NR PA ES W B) as (hs & ds & I & C & _).
  - repeat constructor; discriminate.
  - reflexivity.
  - exact E.
  - exact BH.
  - exact (desk_numbers steps).
  - exact (desk_links steps).
  - exact EX.
  - exists t, hs, ds. auto.
Qed.

(** Without `behaved` it is false. A variable of a function that starts with a constant is initialised once. *)
Definition counter : text :=
  line "f() Int {" ++
  line "  mut n := 1" ++
  line "  n = n + 1" ++
  line "  return n" ++
  line "}" ++
  line "mut r := f()" ++
  line "r = f()" ++
  line "return r".
(** The variables of a function are those of all its calls. *)
Definition nested : text :=
  line "f(n: Int) Int {" ++
  line "  a := n" ++
  line "  if n > 0 {" ++
  line "    f(n - 1)" ++
  line "  }" ++
  line "  return a" ++
  line "}" ++
  line "return f(2)".
(** C does not evaluate the right operand of `&&` if it does not need it. *)
Definition skipped : text :=
  line "mut k := 0" ++
  line "f() Bool {" ++
  line "  k = 1" ++
  line "  return true" ++
  line "}" ++
  line "x := false and f()" ++
  line "return k".
(** Constants are of type `int`. *)
Definition large : text := line "one := 1" ++ line "return 2147483647 + 1".
(** Variables are no constants in C. *)
Definition copied : text := line "x := 1" ++ line "y := x" ++ line "return y".
(** C leaves open which operand is evaluated first. *)
Definition order : text :=
  line "mut k := 1" ++
  line "f() Int {" ++
  line "  k = 2" ++
  line "  return 1" ++
  line "}" ++
  line "return k + f()".

Definition rest_of (src : text) : text :=
  match c_file (file src) (checked_of plain src) with Ok t => skipn (S (List.length includes)) t | UB => [] end.
Definition unit_of (src : text) : list cdef :=
  match c_tokens (no_directives MStart (10 :: rest_of src)) with
  | Some ts => match punit true 200 ts with Some ds => ds | None => [] end
  | None => []
  end.
Definition readable (src : text) : bool :=
  match c_file (file src) (checked_of plain src), c_tokens (no_directives MStart (10 :: rest_of src)) with
  | Ok t, Some ts => text_eqb t (includes ++ 10 :: rest_of src) && match punit true 200 ts with Some _ => true | None => false end
  | _, _ => false
  end.
Lemma readable_file : forall src, readable src = true -> exists t, c_file (file src) (checked_of plain src) = Ok t /\
  forall hs ds, is_c_file true t hs ds -> hs = [] /\ ds = unit_of src.
Proof.
  intros src E. unfold readable in E. destruct (c_file (file src) (checked_of plain src)) as [t|] eqn:CF; [|discriminate E]. exists t. split; [reflexivity|].
  destruct (c_tokens (no_directives MStart (10 :: rest_of src))) as [ts|] eqn:T; [|discriminate E]. apply andb_true_iff in E as (E1 & E2). apply text_eqb_eq in E1.
  destruct (punit true 200 ts) as [ds0|] eqn:P; [|discriminate E2]. intros hs ds IC. unfold unit_of. rewrite T, P. exact (file_is true t _ ts 200 ds0 E1 T P hs ds IC).
Qed.
(** What the theorem asks for, `behaved` left out; Spec_Run.v gives the program the exit code z. *)
Definition meant (src : text) (z : Z) (t : text) : Prop :=
  accepted plain src (tokens_of src) (tree_of plain src) (state_of plain src) (checked_of plain src) /\
  no_call_blocks (tree_of plain src) /\ few_arguments (tree_of plain src) /\ no_references (checked_of plain src) /\ plain_aliases (tree_of plain src) (checked_of plain src) /\
  writable true (file src) (checked_of plain src) /\ c_file (file src) (checked_of plain src) = Ok t /\
  exits toy (s_syms (state_of plain src)) (c_exact1 toy) (c_exact2 toy) (checked_of plain src) [] z [].
(** The C file ends with another exit code; it has no meaning at all. *)
Definition ends_wrong (src : text) (z z' : Z) : Prop := exists t, meant src z t /\
  (exists hs ds, is_c_file true t hs ds) /\ forall hs ds, is_c_file true t hs ds -> c_exits toy desk hs ds [] z' [] /\ ~ c_exits toy desk hs ds [] (wrap32 z) [].
Definition undefined (src : text) (z : Z) : Prop := exists t, meant src z t /\
  (exists hs ds, is_c_file true t hs ds) /\ forall hs ds code o, is_c_file true t hs ds -> ~ c_exits toy desk hs ds [] code o.
Definition meantb (f : nat) (src : text) (z : Z) : bool :=
  compiles plain src && no_call_blocksb (tree_of plain src) && few_argumentsb (tree_of plain src) && no_referencesb (checked_of plain src) &&
  plain_aliasesb (tree_of plain src) (checked_of plain src) && forallb (writable_symbolb true) (tl (ce_syms (file src))) &&
  forallb (fun n => match checked_expr n with Some e => forallb (printable_partb (file src)) (xparts e) | None => true end) (flat_map nodes (checked_of plain src)) &&
  forallb (fun y => match y_kind y with KFunc f => negb (f_external f) | _ => true end) (ce_syms (file src)) && readable src &&
  match Prop_LLVM.result f any1 okay3 src with Some (Some z', []) => (z' =? z)%Z | _ => false end.
Lemma meant_of : forall f src z, meantb f src z = true -> exists t, meant src z t /\ (exists hs ds, is_c_file true t hs ds) /\
  forall hs ds, is_c_file true t hs ds -> hs = [] /\ ds = unit_of src.
Proof.
  intros f src z E. unfold meantb in E. repeat (match type of E with (_ && _)%bool = true => apply andb_true_iff in E as (E & ?) end).
  match goal with X : readable src = true |- _ => destruct (readable_file src X) as (t & CF & IS) end. exists t.
  assert (A : accepted plain src (tokens_of src) (tree_of plain src) (state_of plain src) (checked_of plain src)) by now apply compiles_accepted.
  assert (NC : no_call_blocks (tree_of plain src)) by now apply no_call_blocks_of.
  assert (FA : few_arguments (tree_of plain src)) by now apply few_arguments_of.
  assert (W : writable true (file src) (checked_of plain src)) by (apply writable_of; [exact (file_plain src)|assumption|reflexivity|assumption|assumption]).
  split.
  - split; [exact A|]. split; [exact NC|]. split; [exact FA|]. split; [now apply no_references_of|]. split; [now apply plain_aliases_of|]. split; [exact W|]. split; [exact CF|].
    match goal with X : match Prop_LLVM.result _ _ _ _ with _ => _ end = true |- _ => rename X into R end.
    destruct (Prop_LLVM.result f any1 okay3 src) as [([z'|], [|])|] eqn:RE; try discriminate R. apply Z.eqb_eq in R. subst z'. exact (result_exits_c _ _ _ _ RE).
  - split; [|exact IS].
    destruct (generated_files_read_back plain src (tokens_of src) (tree_of plain src) (state_of plain src) (checked_of plain src) (file src) true (u "busy") t A NC FA eq_refl W) as (hs & ds & I & _);
      [exact busy_base|repeat constructor; discriminate|reflexivity|exact CF|]. exists hs, ds. exact I.
Qed.
Lemma ends_wrong_of : forall f g src z z', meantb f src z = true -> distinctb toy desk [] (unit_of src) = true -> crun toy desk [] (unit_of src) g [] = Some (z', []) -> wrap32 z <> z' -> ends_wrong src z z'.
Proof.
  intros f g src z z' ME D C NE. destruct (meant_of f src z ME) as (t & MT & EX & IS). exists t. split; [exact MT|]. split; [exact EX|]. intros hs ds IC. destruct (IS hs ds IC) as (-> & ->).
  assert (X : c_exits toy desk [] (unit_of src) [] z' []) by exact (crun_sound toy desk [] (unit_of src) g [] z' [] D C). split; [exact X|].
  intro Y. destruct (c_exits_one _ _ _ _ _ _ _ _ _ X Y) as (Z & _). contradiction.
Qed.
(** Where a program without a meaning gets stuck: it starts with the statement that returns e. *)
Lemma starts_with : forall (ds : list cdef) e r o code o', In (FFunc false TyInt (u "main") [] [CReturn (Some (CCall (CId (u "init")) []))]) ds ->
  In (FFunc true TyInt (u "init") [] (CReturn (Some e) :: r)) ds -> c_exits toy desk [] ds o code o' ->
  exists g v c, globals toy desk [] ds o ds g /\ ceval toy desk [] ds (mkcstate toy g [[]] o) e v c.
Proof.
  intros ds e r o code o' IM II (DN & g & c' & G & E & _).
  assert (CALL : forall fn b g0 f0 v c2, defined ds fn TyInt [] b -> ceval toy desk [] ds (mkcstate toy g0 f0 o) (CCall (CId fn) []) v c2 ->
    exists oc c3, cexec toy desk [] ds (mkcstate toy g0 [[]] o) b oc c3).
  { intros fn b g0 f0 v c2 DF X. inversion X as [| | | | | | | | |? ? h ? ? ? _ _ IH|? c1 c4 ? t ps b' ? vs fr oc ? EV _ _ D AR BODY|? ? ? t ps ? ? ? ? ? ? _ _ _ EL]; subst.
    - destruct IH.
    - destruct (defined_one _ _ _ _ DN _ _ _ _ _ _ _ DF D) as (-> & -> & ->). inversion EV; subst. cbn [arguments] in AR. injection AR as <-. eexists _, _. exact BODY.
    - destruct EL as (? & _ & _ & NO). exfalso. exact (NO _ _ _ DF). }
  destruct (CALL _ _ _ _ _ _ (ex_intro _ false IM) E) as (oc & c3 & B). inversion B; subst.
  match goal with X : ceval _ _ _ _ _ (CCall (CId (u "init")) []) _ _ |- _ => destruct (CALL _ _ _ _ _ _ (ex_intro _ true II) X) as (oc & c4 & B2) end. inversion B2; subst.
  eexists g, _, _. split; [exact G|]. eassumption.
Qed.
Theorem c_files_behave_refuted : ends_wrong counter 2 3 /\ ends_wrong nested 2 0 /\ ends_wrong skipped 1 0 /\ undefined large 2147483648 /\ undefined copied 1 /\ undefined order 2.
Proof.
  split; [apply (ends_wrong_of 200 200); [vm_compute; reflexivity..|discriminate]|]. split; [apply (ends_wrong_of 200 200); [vm_compute; reflexivity..|discriminate]|].
  split; [apply (ends_wrong_of 200 200); [vm_compute; reflexivity..|discriminate]|]. split; [|split].
  - destruct (meant_of 200 large 2147483648%Z) as (t & MT & EX & IS); [vm_compute; reflexivity|]. exists t. split; [exact MT|]. split; [exact EX|]. intros hs ds code o IC CE.
    destruct (IS hs ds IC) as (-> & ->).
    assert (U : exists d0 d r, unit_of large = [d0; d; FFunc true TyInt (u "init") [] (CReturn (Some (CBin (u "+") (CNum (u "2147483647")) (CNum (u "1")))) :: r); FFunc false TyInt (u "main") [] [CReturn (Some (CCall (CId (u "init")) []))]])
      by (eexists _, _, _; vm_compute; reflexivity).
    destruct U as (d0 & d & r & U). destruct (starts_with (unit_of large) (CBin (u "+") (CNum (u "2147483647")) (CNum (u "1"))) r [] code o) as (g & v & c & _ & E);
      [rewrite U; right; right; right; now left|rewrite U; right; right; now left|exact CE|].
    inversion E; subst.
    match goal with X : ceval _ _ _ _ _ (CNum (u "2147483647")) _ _ |- _ => inversion X; subst end. match goal with X : ceval _ _ _ _ _ (CNum (u "1")) _ _ |- _ => inversion X; subst end.
    match goal with X : u ?op = u "+" |- _ => apply u_inj in X; subst op end.
    match goal with X : number_value _ _ (u "2147483647") = Some ?a, Y : number_value _ _ (u "1") = Some ?b, Z0 : c_binary_value _ _ ?a ?b = Some _ |- _ =>
      vm_compute in X; vm_compute in Y; injection X as <-; injection Y as <-; vm_compute in Z0; discriminate Z0 end.
  - destruct (meant_of 200 copied 1%Z) as (t & MT & EX & IS); [vm_compute; reflexivity|]. exists t. split; [exact MT|]. split; [exact EX|]. intros hs ds code o IC (_ & g & c' & G & _).
    destruct (IS hs ds IC) as (-> & ->).
    assert (U : exists d r, unit_of copied = d :: FVar true true TyInt64 (u "y") None (Some (CId (u "x"))) :: r) by (eexists _, _; vm_compute; reflexivity).
    destruct U as (d & r & U).
    assert (NO : forall b g, ~ globals toy desk [] b [] (FVar true true TyInt64 (u "y") None (Some (CId (u "x"))) :: r) g).
    { intros b g0 X. inversion X as [|? ? ? ? ? ? ? ? ? _ FV|? ? ? NV]; subst; [destruct FV as (K & _); discriminate K|]. exact (NV _ _ _ _ _ _ eq_refl). }
    rewrite U in G at 2. inversion G as [|? ? ? ? ? ? ? ? ? G1 _|? ? ? _ G1]; subst; exact (NO _ _ G1).
  - destruct (meant_of 200 order 2%Z) as (t & MT & EX & IS); [vm_compute; reflexivity|]. exists t. split; [exact MT|]. split; [exact EX|]. intros hs ds code o IC CE.
    destruct (IS hs ds IC) as (-> & ->). pose proof CE as (DN & _).
    assert (U : exists a d r, unit_of order = [FVar true false TyInt64 (u "k") None (Some (CNum (u "1"))); a; d; FFunc true TyInt (u "init") [] (CReturn (Some (CBin (u "+") (CId (u "k")) (CCall (CId (u "f")) []))) :: r); FFunc false TyInt (u "main") [] [CReturn (Some (CCall (CId (u "init")) []))]])
      by (eexists _, _, _; vm_compute; reflexivity).
    destruct U as (a & d & r & U).
    destruct (starts_with (unit_of order) (CBin (u "+") (CId (u "k")) (CCall (CId (u "f")) [])) r [] code o) as (g & v & c & G & E);
      [rewrite U; right; right; right; right; now left|rewrite U; right; right; right; now left|exact CE|].
    assert (GG : exists g0, cglobals toy desk [] (unit_of order) 50 [] (unit_of order) = Some g0 /\
      exists y c2, cev toy desk [] (unit_of order) 50 (mkcstate toy g0 [[]] []) (CCall (CId (u "f")) []) = Some (y, c2) /\ find toy (mkcstate toy g0 [[]] []) (u "k") <> find toy c2 (u "k")).
    { eexists. split; [vm_compute; reflexivity|]. eexists _, _. split; [vm_compute; reflexivity|]. vm_compute. discriminate. }
    destruct GG as (g0 & G0 & y & c2 & C2 & DIFF). apply cglobals_sound in G0. assert (g = g0) as -> by exact (globals_one _ _ _ _ DN _ _ _ _ G0 G).
    apply (proj1 (cev_sound toy desk [] (unit_of order) 50)) in C2. inversion E; subst.
    + match goal with X : ceval _ _ _ _ _ (CId (u "k")) _ _ |- _ => inversion X; subst end.
      match goal with X : ceval _ _ _ _ _ (CCall (CId (u "f")) []) _ _ |- _ => destruct (proj1 (runs_one _ _ _ _ DN) _ _ _ _ C2 _ _ X) as (_ & ->) end.
      match goal with X : any_order _ _ _ _ |- _ => destruct X as (_ & AO) end. apply DIFF. apply (AO (CId (u "k"))); [now left|reflexivity|now left].
Qed.
Print Assumptions c_files_behave_refuted.
