(** Theorems about the C files that are written. *)
From Coq Require Import List Arith NArith ZArith Bool Lia Ascii String.
From Verif Require Import Base Model_Token Model_Literal Model_Parse Spec_Parse Model_Sem Spec_Sem Spec_Sem2 Proof_Sem Proof_SemEx
  Prop_Sem Model_Names Spec_Names Model_CGen Model_CFile Spec_C Spec_CGen Proof_C2 Proof_CGen2 Spec_CProg Proof_CProg Spec_CBack Proof_CProg5 Proof_CProg6 Prop_CGen Proof_CProg3.
Import ListNotations.
Open Scope list_scope.
Open Scope N_scope.

(** C55: the file that is written for an accepted program is a C translation unit behind the
    includes and the helpers that the program needs, each of them once. It has exactly one reading, and this reading
    is the program: its statements, variables and functions, in order. *)
Theorem generated_files_read_back : forall w src ts tree s l env c23 m t,
  accepted w src ts tree s l -> no_call_blocks tree -> few_arguments tree -> ce_syms env = s_syms s -> writable c23 env l ->
  has_base (ce_file env) (m ++ u ".sk") -> nz m -> Spec_Names.fits m -> c_file env l = Ok t ->
  exists hs ds, is_c_file c23 t hs ds /\ unit_stands env l (chr "." :: m) ds /\ helped l hs /\ NoDup hs.
Proof. exact c_programs_l. Qed.
Print Assumptions generated_files_read_back.

(** A way to check `writable`. *)
Fixpoint nodes (n : tnode) : list tnode := match n with mktnode _ _ _ c => n :: flat_map nodes c end.
Lemma nodes_in : forall m l, in_checked m l -> In m (flat_map nodes l).
Proof.
  intros m l H. induction H as [l I|y l I H IH].
  - apply in_flat_map. exists m. split; [exact I|]. destruct m. now left.
  - apply in_flat_map. exists y. split; [exact I|]. destruct y as [a b c d]. right. exact IH.
Qed.
Fixpoint has_boolb (t : ty) : bool := match t with TBool => true | TRef t => has_boolb t | _ => false end.
Lemma has_bool_of : forall t, has_boolb t = false -> ~ has_bool t.
Proof. induction t; cbn; auto. discriminate. Qed.
Definition usableb (c23 : bool) (n : text) : bool := c_name n && negb (c23 && existsb (text_eqb n) c23_words).
Lemma usable_of : forall c23 n, usableb c23 n = true -> usable c23 n.
Proof.
  intros c23 n H. unfold usableb in H. apply andb_prop in H as (H1 & H2). split; [exact H1|]. intros -> I. apply negb_true_iff in H2. cbn [andb] in H2.
  assert (X : existsb (text_eqb n) c23_words = true) by (apply existsb_exists; exists n; split; [exact I|now apply text_eqb_eq]). congruence.
Qed.
Definition writable_symbolb (c23 : bool) (y : symbol) : bool :=
  match y_kind y with
  | KVar v => usableb c23 (y_name y) && (c23 || negb (has_boolb (v_type v)))
  | KFunc f => usableb c23 (y_name y) && (c23 || negb (has_boolb (f_ret f)))
  | KSpace _ => forallb plain_char (y_name y)
  | _ => true
  end.
Lemma plain_of : forall t, forallb plain_char t = true -> plain_chars t.
Proof.
  intros t H c I. rewrite forallb_forall in H. specialize (H c I). unfold plain_char in H. apply negb_true_iff in H.
  repeat split; intros ->; discriminate H.
Qed.
Lemma writable_of : forall c23 env l, (forall k t, ce_linkage env k = Some t -> plain_chars t) -> forallb (writable_symbolb c23) (tl (ce_syms env)) = true -> forallb plain_char (ce_file env) = true ->
  forallb (fun n => match checked_expr n with Some e => forallb (printable_partb env) (xparts e) | None => true end) (flat_map nodes l) = true ->
  forallb (fun y => match y_kind y with KFunc f => negb (f_external f) | _ => true end) (ce_syms env) = true ->
  writable c23 env l.
Proof.
  intros c23 env l LN WS WF WP WX. split; [|split; [|split; [|split]]].
  - intros k y E. rewrite forallb_forall in WS. assert (I : In y (tl (ce_syms env))) by (destruct (ce_syms env); [discriminate E|exact (nth_error_In _ k E)]).
    specialize (WS y I). unfold writable_symbolb in WS. unfold writable_symbol.
    destruct (y_kind y) as [v|f|a|a]; [| |exact Logic.I|now apply plain_of]; apply andb_prop in WS as (W1 & W2); (split; [now apply usable_of|]); intros ->; apply has_bool_of; now apply negb_true_iff in W2.
  - intros n e I E. rewrite forallb_forall in WP. specialize (WP n (nodes_in _ _ I)). rewrite E in WP. now apply printable_of.
  - exact LN.
  - now apply plain_of.
  - intros n k ks x f _ _ (y & N & _ & K) EX. rewrite forallb_forall in WX. specialize (WX y (nth_error_In _ _ N)). rewrite K, EX in WX. discriminate WX.
Qed.

(** Written from x/busy.sk, with `#line` if debug is set. *)
Definition place (debug : bool) (src : text) : cctx :=
  mkcctx (s_syms (state_of plain src)) (fun _ => u "0x1.8p+1") (fun _ => false) (fun k => if Nat.eqb k 1 then Some (u ".busy.twice") else None) debug (u "x/busy.sk").
Definition mixed : text :=
  line "export twice(n: Int, s: Str) Int {" ++
  line "  if n < 1 {" ++
  line "    return 0 - n" ++
  line "  }" ++
  line "  # otherwise" ++
  line "  elif s is ""no"" {" ++
  line "    m := n ^ 2" ++
  line "    return m" ++
  line "  }" ++
  line "  else {" ++
  line "    noop" ++
  line "  }" ++
  line "  return n + n" ++
  line "}" ++
  line "a := 3" ++
  line "mut b := twice(a, ""x y"")" ++
  line "while b < 10 {" ++
  line "  b = b * 2" ++
  line "}" ++
  line "namespace space {" ++
  line "  c := 1.5" ++
  line "}" ++
  line "return b".
Lemma labels_plain : forall k t, ce_linkage (place true mixed) k = Some t -> plain_chars t.
Proof. intros k t E. cbn [place ce_linkage] in E. destruct (Nat.eqb k 1); [|discriminate E]. injection E as <-. now apply plain_of. Qed.
Example generated_files_read_back_ex :
  accepted plain mixed (tokens_of mixed) (tree_of plain mixed) (state_of plain mixed) (checked_of plain mixed) /\
  no_call_blocks (tree_of plain mixed) /\ few_arguments (tree_of plain mixed) /\
  writable false (place true mixed) (checked_of plain mixed) /\ has_base (u "x/busy.sk") (u "busy" ++ u ".sk") /\
  exists t hs ds, c_file (place true mixed) (checked_of plain mixed) = Ok t /\ is_c_file false t hs ds /\
    unit_stands (place true mixed) (checked_of plain mixed) (u ".busy") ds /\ helped (checked_of plain mixed) hs.
Proof.
  assert (A : accepted plain mixed (tokens_of mixed) (tree_of plain mixed) (state_of plain mixed) (checked_of plain mixed)) by (apply compiles_accepted; vm_compute; reflexivity).
  assert (NC : no_call_blocks (tree_of plain mixed)) by (apply no_call_blocks_of; vm_compute; reflexivity).
  assert (FA : few_arguments (tree_of plain mixed)) by (apply few_arguments_of; vm_compute; reflexivity).
  assert (W : writable false (place true mixed) (checked_of plain mixed)) by (apply writable_of; [exact labels_plain|vm_compute; reflexivity..]).
  assert (B : has_base (u "x/busy.sk") (u "busy" ++ u ".sk")).
  { split; [intro H; vm_compute in H; repeat (destruct H as [H|H]; [discriminate H|]); exact H|]. right. exists (u "x"). reflexivity. }
  assert (ES : ce_syms (place true mixed) = s_syms (state_of plain mixed)) by (unfold place; cbn [ce_syms]; reflexivity).
  assert (B' : has_base (ce_file (place true mixed)) (u "busy" ++ u ".sk")) by (unfold place; cbn [ce_file]; exact B).
  split; [exact A|]. split; [exact NC|]. split; [exact FA|]. split; [exact W|]. split; [exact B|].
  destruct (c_file (place true mixed) (checked_of plain mixed)) as [t|] eqn:E; [|exfalso; vm_compute in E; discriminate E].
  destruct (generated_files_read_back plain mixed (tokens_of mixed) (tree_of plain mixed) (state_of plain mixed) (checked_of plain mixed)
    (place true mixed) false (u "busy") t A NC FA ES W B') as (hs & ds & I & S & H & _).
  - repeat constructor; discriminate.
  - reflexivity.
  - exact E.
  - exists t, hs, ds. auto.
Qed.

(** Not all accepted programs have such files. Before C23 there is no type `bool` without another
    header; variables can have the names of C keywords; and blocks without a statement are
    written through a null pointer. *)
Lemma first_constant : forall c23 w x r ds, unit_at c23 (kw "static" :: kw "const" :: KId w :: KId x :: op "=" :: r) ds ->
  is_type_word c23 w = true /\ c_name x = true.
Proof.
  intros c23 w x r ds U. inversion U as [|? d r' ds' D _]; subst. clear U.
  assert (T : forall ts2 t y ts3, word_at true "static" (kw "static" :: kw "const" :: KId w :: KId x :: op "=" :: r) ts2 \/
    word_at false "static" (kw "static" :: kw "const" :: KId w :: KId x :: op "=" :: r) ts2 -> type_at c23 ts2 t (KId y :: ts3) -> False).
  { intros ts2 t y ts3 W (n & t0 & ts' & E & I & _). unfold type_word, type_words in I. apply in_app_or in I.
    destruct W as [W|W]; cbn [word_at app] in W; unfold word_at in W; cbn [app] in W.
    - assert (ts2 = kw "const" :: KId w :: KId x :: op "=" :: r) as -> by congruence. assert (n = u "const") as -> by (unfold kw in E; congruence).
      destruct I as [I|I]; [cbn in I; repeat (destruct I as [I|I]; [discriminate I|]); exact I|]. destruct c23; [destruct I as [I|[]]; discriminate I|exact I].
    - subst ts2. assert (n = u "static") as -> by (unfold kw in E; congruence).
      destruct I as [I|I]; [cbn in I; repeat (destruct I as [I|I]; [discriminate I|]); exact I|]. destruct c23; [destruct I as [I|[]]; discriminate I|exact I]. }
  inversion D as [? s ts1 q ts2 t y ts3 lb ts4 i ? W1 W2 TY CN _ _|? s ts1 t f ts2 ps ts3 lb ? W1 TY|? s ts1 t f ts2 ps ts3 b ? W1 TY]; subst;
    [|exfalso; apply (T ts1 t f (op "(" :: ts2)); [destruct s; auto|exact TY]..].
  destruct q; [|exfalso; unfold word_at in W2; cbn [app] in W2; subst ts1; apply (T ts2 t y ts3); [destruct s; auto|exact TY]].
  destruct s; unfold word_at in W1, W2; cbn [app] in W1, W2; [|exfalso; subst ts1; assert (X : kw "static" = kw "const") by congruence; discriminate X].
  assert (ts2 = KId w :: KId x :: op "=" :: r) as -> by congruence. destruct TY as (n & t0 & ts' & E & I & SS).
  assert (n = w) as -> by congruence. assert (ts' = KId x :: op "=" :: r) as -> by congruence. split.
  - unfold is_type_word. apply existsb_exists. exists (w, t0). split; [exact I|]. now apply text_eqb_eq.
  - inversion SS as [? ? _|]; subst. exact CN.
Qed.

Lemma no_unit : forall c23 t after r, t = includes ++ 10 :: after -> c_tokens (no_directives MStart (10 :: after)) = Some r ->
  (forall ds, ~ unit_at c23 r ds) -> forall hs ds, ~ is_c_file c23 t hs ds.
Proof.
  intros c23 t after r -> R NU hs ds (front & rest & E & F & (ts & T & U & _)). apply app_inv_head in E.
  destruct front as [|c front].
  - cbn [app] in E. subst rest. assert (ts = r) as -> by congruence. exact (NU ds U).
  - cbn [app] in E. assert (c = 10) as -> by congruence. destruct hs as [|[| |] hs]; cbn in F; discriminate F.
Qed.
Definition truth : text := line "x := true".
Definition keyword : text := line "int := 5".
Definition hollow : text := line "while true {" ++ line "  # nothing" ++ line "}".
Theorem generated_files_read_back_refuted :
  (exists w src ts tree s l env t, accepted w src ts tree s l /\ ce_syms env = s_syms s /\ c_file env l = Ok t /\
    forall hs ds, ~ is_c_file false t hs ds) /\
  (exists w src ts tree s l env t, accepted w src ts tree s l /\ ce_syms env = s_syms s /\ c_file env l = Ok t /\
    forall c23 hs ds, ~ is_c_file c23 t hs ds) /\
  (exists w src ts tree s l, accepted w src ts tree s l /\ forall hex zero, c_file (mkcctx (s_syms s) hex zero (fun _ => None) false (u "a.sk")) l = UB).
Proof.
  split; [|split].
  - destruct (c_file (place false truth) (checked_of plain truth)) as [t|] eqn:E; [|exfalso; vm_compute in E; discriminate E].
    exists plain, truth, (tokens_of truth), (tree_of plain truth), (state_of plain truth), (checked_of plain truth), (place false truth), t.
    split; [apply compiles_accepted; vm_compute; reflexivity|]. split; [unfold place; cbn [ce_syms]; reflexivity|]. split; [exact E|].
    vm_compute in E. apply ok_inj in E. intros hs ds.
    eapply no_unit with (r := _); [rewrite <- E; reflexivity|vm_compute; reflexivity|]. intros ds' U. apply first_constant in U as (X & _). discriminate X.
  - destruct (c_file (place false keyword) (checked_of plain keyword)) as [t|] eqn:E; [|exfalso; vm_compute in E; discriminate E].
    exists plain, keyword, (tokens_of keyword), (tree_of plain keyword), (state_of plain keyword), (checked_of plain keyword), (place false keyword), t.
    split; [apply compiles_accepted; vm_compute; reflexivity|]. split; [unfold place; cbn [ce_syms]; reflexivity|]. split; [exact E|].
    vm_compute in E. apply ok_inj in E. intros c23 hs ds.
    eapply no_unit with (r := _); [rewrite <- E; reflexivity|vm_compute; reflexivity|]. intros ds' U. apply first_constant in U as (_ & X). discriminate X.
  - exists plain, hollow, (tokens_of hollow), (tree_of plain hollow), (state_of plain hollow), (checked_of plain hollow).
    split; [apply compiles_accepted; vm_compute; reflexivity|]. intros hex zero. vm_compute. reflexivity.
Qed.
Print Assumptions generated_files_read_back_refuted.

(** C56: for accepted programs that can be written in C a file is written exactly if there is
    something to write in each block. (Otherwise a null pointer is printed.) *)
Theorem c_files_are_written : forall w src ts tree s l env c23 m,
  accepted w src ts tree s l -> no_call_blocks tree -> few_arguments tree -> ce_syms env = s_syms s -> writable c23 env l ->
  labels_known env -> has_base (ce_file env) (m ++ u ".sk") -> nz m -> Spec_Names.fits m ->
  (exists t, c_file env l = Ok t) <-> filled env l.
Proof. exact c_files_l. Qed.
Print Assumptions c_files_are_written.

(** A way to check `labels_known`. *)
Definition label_known (env : cctx) (k : nat) : bool :=
  match nth_error (ce_syms env) k with
  | Some (mksym _ _ (KVar v)) => negb (v_exported v) || match ce_linkage env k with Some _ => true | None => false end
  | Some (mksym _ _ (KFunc f)) => negb (f_export f) || match ce_linkage env k with Some _ => true | None => false end
  | _ => true
  end.
Lemma labels_known_of : forall env, forallb (label_known env) (List.seq 0 (List.length (ce_syms env))) = true -> labels_known env.
Proof.
  intros env H. rewrite forallb_forall in H.
  assert (X : forall k y, nth_error (ce_syms env) k = Some y -> label_known env k = true).
  { intros k y E. apply H, in_seq. split; [apply Nat.le_0_l|]. apply nth_error_Some. congruence. }
  split; intros k x z (y & E & _ & K) EX L; specialize (X k y E); unfold label_known in X; rewrite E in X; destruct y as [a b c]; cbn [y_kind] in K; subst c;
    rewrite EX, L in X; discriminate X.
Qed.
(** A function whose only statements are put in front of it. *)
Definition idle_function : text := line "f() {" ++ line "  x := 5" ++ line "  y := x" ++ line "}" ++ line "f()".
Definition marked (src : text) : cctx :=
  mkcctx (s_syms (state_of plain src)) (fun _ => u "0x1.8p+1") (fun _ => false) (fun k => if Nat.eqb k 1 then Some (u ".busy.x") else None) true (u "busy.sk").
Lemma marked_plain : forall src k t, ce_linkage (marked src) k = Some t -> plain_chars t.
Proof. intros src k t E. cbn [marked ce_linkage] in E. destruct (Nat.eqb k 1); [|discriminate E]. injection E as <-. now apply plain_of. Qed.
Lemma busy_base : has_base (u "busy.sk") (u "busy" ++ u ".sk").
Proof. split; [intro H; vm_compute in H; repeat (destruct H as [H|H]; [discriminate H|]); exact H|]. now left. Qed.

Example c_files_are_written_ex :
  accepted plain mixed (tokens_of mixed) (tree_of plain mixed) (state_of plain mixed) (checked_of plain mixed) /\
  writable false (marked mixed) (checked_of plain mixed) /\ labels_known (marked mixed) /\
  filled (marked mixed) (checked_of plain mixed).
Proof.
  assert (A : accepted plain mixed (tokens_of mixed) (tree_of plain mixed) (state_of plain mixed) (checked_of plain mixed)) by (apply compiles_accepted; vm_compute; reflexivity).
  assert (NC : no_call_blocks (tree_of plain mixed)) by (apply no_call_blocks_of; vm_compute; reflexivity).
  assert (FA : few_arguments (tree_of plain mixed)) by (apply few_arguments_of; vm_compute; reflexivity).
  assert (W : writable false (marked mixed) (checked_of plain mixed)) by (apply writable_of; [exact (marked_plain mixed)|vm_compute; reflexivity..]).
  assert (ES : ce_syms (marked mixed) = s_syms (state_of plain mixed)) by (unfold marked; cbn [ce_syms]; reflexivity).
  assert (LK : labels_known (marked mixed)) by (apply labels_known_of; vm_compute; reflexivity).
  assert (B : has_base (ce_file (marked mixed)) (u "busy" ++ u ".sk")) by (unfold marked; cbn [ce_file]; exact busy_base).
  split; [exact A|]. split; [exact W|]. split; [exact LK|].
  refine (proj1 (c_files_are_written plain mixed (tokens_of mixed) (tree_of plain mixed) (state_of plain mixed) (checked_of plain mixed)
    (marked mixed) false (u "busy") A NC FA ES W LK B _ _) _); [repeat constructor; discriminate|reflexivity|].
  destruct (c_file (marked mixed) (checked_of plain mixed)) as [t|] eqn:E; [exists t; reflexivity|exfalso; vm_compute in E; discriminate E].
Qed.

(** Programs that meet the hypotheses and for which no file is written. *)
Definition unwritten (src : text) : Prop :=
  accepted plain src (tokens_of src) (tree_of plain src) (state_of plain src) (checked_of plain src) /\
  no_call_blocks (tree_of plain src) /\ few_arguments (tree_of plain src) /\ writable false (marked src) (checked_of plain src) /\
  labels_known (marked src) /\ ~ exists t, c_file (marked src) (checked_of plain src) = Ok t.
Lemma unwritten_of : forall src, compiles plain src = true ->
  forallb (writable_symbolb false) (tl (ce_syms (marked src))) = true ->
  forallb (fun n => match checked_expr n with Some e => forallb (printable_partb (marked src)) (xparts e) | None => true end) (flat_map nodes (checked_of plain src)) = true ->
  forallb (fun y => match y_kind y with KFunc f => negb (f_external f) | _ => true end) (ce_syms (marked src)) = true ->
  forallb (label_known (marked src)) (List.seq 0 (List.length (ce_syms (marked src)))) = true ->
  no_call_blocks (tree_of plain src) -> few_arguments (tree_of plain src) -> c_file (marked src) (checked_of plain src) = UB -> unwritten src.
Proof.
  intros src H1 H2 H3 H4 H5 H6 H7 H8. split; [now apply compiles_accepted|]. split; [exact H6|]. split; [exact H7|].
  split; [apply writable_of; [exact (marked_plain src)|exact H2|reflexivity|exact H3|exact H4]|]. split; [now apply labels_known_of|]. rewrite H8. intros (t & E). discriminate E.
Qed.
Example unwritten_ex : unwritten hollow /\ unwritten idle_function.
Proof.
  split; (apply unwritten_of; [vm_compute; reflexivity..|apply no_call_blocks_of; vm_compute; reflexivity|apply few_arguments_of; vm_compute; reflexivity|vm_compute; reflexivity]).
Qed.
