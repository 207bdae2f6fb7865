(** What holds for the code of the LLVM back end. *)
From Coq Require Import List Arith NArith ZArith Bool Lia Ascii String.
From Verif Require Import Base Model_Token Model_Literal Model_Parse Spec_Parse Model_Sem Spec_Sem Spec_Sem2 Spec_Run Spec_IR Model_LLVM Spec_LLVM
  Proof_SemEx Proof_RunEx Proof_Stuck Prop_Sem Proof_LLVM11.
Import ListNotations.
Open Scope list_scope.
Open Scope N_scope.

(** * Programs to look at *)

(** A machine for the examples: its floating point numbers are integers, and the outside
    keeps the calls. *)
Definition toy : host := mkhost Z (fun _ => 0%Z) 0%Z Z.opp Z.add Z.sub Z.mul Z.quot Z.rem Z.pow Z.eqb Z.ltb Z.leb
  (list (list (sv Z))) (fun _ vs o => Some (SvVoid, o ++ [vs])).
(** LLVM without any folding of constants. *)
Definition unfolded : iop -> operand toy -> operand toy -> option (operand toy) := fun _ _ _ => None.
Lemma unfolded_well : folds_well toy unfolded.
Proof. intros o a b c E. discriminate E. Qed.

Definition code_of (src : text) : module toy :=
  match gen_module toy unfolded (s_syms (state_of plain src)) false (checked_of plain src) with
  | Ok M => M
  | UB => mkmodule toy [] [] 0 []
  end.
Definition generated (src : text) : bool :=
  match gen_module toy unfolded (s_syms (state_of plain src)) false (checked_of plain src) with Ok _ => true | UB => false end.
Lemma generated_code : forall src, generated src = true ->
  gen_module toy unfolded (s_syms (state_of plain src)) false (checked_of plain src) = Ok (code_of src).
Proof. intros src E. unfold generated, code_of in *. destruct (gen_module _ _ _ _ _); [reflexivity|discriminate E]. Qed.

Definition okay1 (o : unop) (v : sv Z) : bool := match o, v with UNeg, SvFloat f => (0 - f =? - f)%Z | _, _ => true end.
Definition okay2 (o : binop) (a b : sv Z) : bool :=
  match o, a, b with
  | BDiv, SvInt x, SvInt y => (Z.rem x y =? 0)%Z
  | BMod, SvInt x, SvInt y => in64 (Z.quot x y)
  | BPow, SvInt x, SvInt y => (1 <=? y)%Z
  | BPow, SvFloat _, SvFloat _ => false
  | _, _, _ => true
  end.
Lemma okay1_exact : forall o v, okay1 o v = true -> exact1 toy o v.
Proof. intros o v E. destruct o, v; cbn in *; auto. Qed.
Lemma okay2_exact : forall o v w, okay2 o v w = true -> exact2 toy o v w.
Proof.
  intros o v w E. destruct o; try exact I; destruct v; try exact I; destruct w; try exact I; cbn in *; auto; [now apply Z.eqb_eq|now apply Z.leb_le|discriminate E].
Qed.

Definition program : text :=
  line "external puts(x: Str)" ++
  line "mut total := 0" ++
  line "fact(n: Int) Int {" ++
  line "  if n < 2 {" ++
  line "    return 1" ++
  line "  }" ++
  line "  return n * fact(n - 1)" ++
  line "}" ++
  line "count(limit: Int) Int {" ++
  line "  mut i := 0" ++
  line "  mut odd := 0" ++
  line "  while true {" ++
  line "    i = i + 1" ++
  line "    if i > limit {" ++
  line "      break" ++
  line "    }" ++
  line "    # even" ++
  line "    elif (i mod 2) is 0 {" ++
  line "      continue" ++
  line "    }" ++
  line "    odd = odd + 1" ++
  line "    total = total + odd" ++
  line "  }" ++
  line "  return odd" ++
  line "}" ++
  line "namespace a {" ++
  line "  b := fact(4) / 6" ++
  line "}" ++
  line "if ""x"" is ""y"" {" ++
  line "  puts(""bad"")" ++
  line "}" ++
  line "else {" ++
  line "  puts(""good"")" ++
  line "}" ++
  line "while total < 5 {" ++
  line "  c := count(a.b) - 4" ++
  line "  total = total + (c ^ 2)" ++
  line "}" ++
  line "return total".


(** Whether Spec_Run.v gives a program the exit code z and the calls o, with and without the
    restrictions of Spec_LLVM.v. *)
Definition any1 (o : unop) (v : sv Z) : bool := true.
Definition any2 (o : binop) (a b : sv Z) : bool := true.
Definition result (f : nat) (b1 : unop -> sv Z -> bool) (b2 : binop -> sv Z -> sv Z -> bool) (src : text) : option (option Z * h_out toy) :=
  match ex toy (s_syms (state_of plain src)) b1 b2 f (start toy []) (checked_of plain src) with
  | Some (o, s) => Some (exit_code toy o, r_out toy s)
  | None => None
  end.
Lemma result_exits : forall f src z o, result f okay1 okay2 src = Some (Some z, o) ->
  exits toy (s_syms (state_of plain src)) (exact1 toy) (exact2 toy) (checked_of plain src) [] z o.
Proof.
  intros f src z o E. apply (exits_of toy _ _ _ okay1 okay2 okay1_exact okay2_exact f). unfold result in E.
  destruct (ex toy _ _ _ _ _ _) as [(out, s)|]; [|discriminate E]. injection E as E1 E2. split; assumption.
Qed.
Lemma result_exits_any : forall f src z o, result f any1 any2 src = Some (Some z, o) ->
  exits toy (s_syms (state_of plain src)) (fun _ _ => True) (fun _ _ _ => True) (checked_of plain src) [] z o.
Proof.
  intros f src z o E. apply (exits_of toy _ _ _ any1 any2) with (f := f); [intros; exact I|intros; exact I|]. unfold result in E.
  destruct (ex toy _ _ _ _ _ _) as [(out, s)|]; [|discriminate E]. injection E as E1 E2. split; assumption.
Qed.

(** C51: the code of an accepted program ends with the exit code that the program has after
    Spec_Run.v, calls the same functions from outside in the same order with the same
    arguments, and has no other result, with debug information (`-g`) or without. (References are left out, variables defined with
    `mut` in a loop outside of functions are, and divisions with a rest are.) *)
Theorem code_runs : forall H fold debug w src ts tree s l M o code o', folds_well H fold ->
  accepted w src ts tree s l -> no_call_blocks tree -> few_arguments tree -> no_references l ->
  forallb (steady (s_syms s)) l = true -> gen_module H fold (s_syms s) debug l = Ok M ->
  exits H (s_syms s) (exact1 H) (exact2 H) l o code o' ->
  module_exits H M o code o' /\ forall code2 o2, module_exits H M o code2 o2 -> code2 = code /\ o2 = o'.
Proof.
  intros H fold debug w src ts tree s l M o code o' FW A NC FA NR ST G E.
  pose proof (code_runs_l H fold debug FW _ _ _ _ _ _ _ _ _ _ A NC FA NR ST G E) as X. split; [exact X|].
  intros code2 o2. exact (module_one H M _ _ _ _ _ X).
Qed.
Print Assumptions code_runs.

(** The program above: it calls `puts` with "good" and returns 7. *)
Example code_runs_ex :
  accepted plain program (tokens_of program) (tree_of plain program) (state_of plain program) (checked_of plain program) /\
  no_call_blocks (tree_of plain program) /\ few_arguments (tree_of plain program) /\ no_references (checked_of plain program) /\
  forallb (steady (s_syms (state_of plain program))) (checked_of plain program) = true /\
  gen_module toy unfolded (s_syms (state_of plain program)) false (checked_of plain program) = Ok (code_of program) /\
  exits toy (s_syms (state_of plain program)) (exact1 toy) (exact2 toy) (checked_of plain program) [] 7%Z [[SvStr (u "good")]] /\
  module_exits toy (code_of program) [] 7%Z [[SvStr (u "good")]].
Proof.
  assert (A : accepted plain program (tokens_of program) (tree_of plain program) (state_of plain program) (checked_of plain program))
    by (apply compiles_accepted; vm_compute; reflexivity).
  assert (NC : no_call_blocks (tree_of plain program)) by (apply no_call_blocks_of; vm_compute; reflexivity).
  assert (FA : few_arguments (tree_of plain program)) by (apply few_arguments_of; vm_compute; reflexivity).
  assert (NR : no_references (checked_of plain program)) by (apply no_references_of; vm_compute; reflexivity).
  assert (ST : forallb (steady (s_syms (state_of plain program))) (checked_of plain program) = true) by (vm_compute; reflexivity).
  assert (G : gen_module toy unfolded (s_syms (state_of plain program)) false (checked_of plain program) = Ok (code_of program))
    by (apply generated_code; vm_compute; reflexivity).
  assert (E : exits toy (s_syms (state_of plain program)) (exact1 toy) (exact2 toy) (checked_of plain program) [] 7%Z [[SvStr (u "good")]])
    by (apply (result_exits 200); vm_compute; reflexivity).
  refine (conj A (conj NC (conj FA (conj NR (conj ST (conj G (conj E _))))))).
  exact (proj1 (code_runs _ _ _ _ _ _ _ _ _ _ _ _ _ unfolded_well A NC FA NR ST G E)).
Qed.
(** With debug information the code is another: the parameters of functions are kept in memory, so that
    the debugger finds them. The result is the same. *)
Example code_runs_debug_ex : exists M, gen_module toy unfolded (s_syms (state_of plain program)) true (checked_of plain program) = Ok M /\
  List.length (m_blocks toy M) = List.length (m_blocks toy (code_of program)) /\ m_blocks toy M <> m_blocks toy (code_of program) /\
  module_exits toy M [] 7%Z [[SvStr (u "good")]].
Proof.
  destruct (gen_module toy unfolded (s_syms (state_of plain program)) true (checked_of plain program)) as [M|] eqn:G; [|exfalso; vm_compute in G; discriminate G].
  exists M. split; [reflexivity|].
  assert (L : match gen_module toy unfolded (s_syms (state_of plain program)) true (checked_of plain program) with
    | Ok m => List.map (@List.length _) (m_blocks toy m) | UB => [] end <> List.map (@List.length _) (m_blocks toy (code_of program)) /\
    List.length match gen_module toy unfolded (s_syms (state_of plain program)) true (checked_of plain program) with
    | Ok m => m_blocks toy m | UB => [] end = List.length (m_blocks toy (code_of program)))
    by (split; vm_compute; [discriminate|reflexivity]).
  rewrite G in L. destruct L as (L1 & L2). split; [exact L2|]. split; [intro X; apply L1; now rewrite X|].
  refine (proj1 (code_runs toy unfolded true plain program (tokens_of program) (tree_of plain program) (state_of plain program) (checked_of plain program) M [] 7%Z [[SvStr (u "good")]]
    unfolded_well _ _ _ _ _ G _));
    [apply compiles_accepted|apply no_call_blocks_of|apply few_arguments_of|apply no_references_of| |apply (result_exits 200)]; vm_compute; reflexivity.
Qed.

(** Without the restrictions it is false. `/` is an exact division: with a rest, the result
    is poison. *)
Definition halves : text :=
  line "half(a: Int) Int {" ++
  line "  return a / 2" ++
  line "}" ++
  line "return half(7)".
(** A variable outside of functions is initialised once only, even in a loop. *)
Definition again : text :=
  line "mut i := 0" ++
  line "mut sum := 0" ++
  line "while i < 3 {" ++
  line "  mut x := 0" ++
  line "  x = x + 1" ++
  line "  sum = sum + x" ++
  line "  i = i + 1" ++
  line "}" ++
  line "return sum".
(** The helper for powers returns the base for the exponent zero. *)
Definition power : text :=
  line "power(a: Int, b: Int) Int {" ++
  line "  return a ^ b" ++
  line "}" ++
  line "return power(2, 0)".
(** Spec_Run.v gives the program the exit code z, the code returns x instead. *)
Definition runs_wrong (src : text) (z : Z) (x : tv toy) : Prop :=
  accepted plain src (tokens_of src) (tree_of plain src) (state_of plain src) (checked_of plain src) /\
  no_call_blocks (tree_of plain src) /\ few_arguments (tree_of plain src) /\ no_references (checked_of plain src) /\
  gen_module toy unfolded (s_syms (state_of plain src)) false (checked_of plain src) = Ok (code_of src) /\
  exits toy (s_syms (state_of plain src)) (fun _ _ => True) (fun _ _ _ => True) (checked_of plain src) [] z [] /\
  (exists g, main_result toy (code_of src) g [] = Some (Some x, [])) /\ ~ module_exits toy (code_of src) [] z [].
Lemma runs_wrong_of : forall f g src z x, compiles plain src = true -> no_call_blocksb (tree_of plain src) = true ->
  few_argumentsb (tree_of plain src) = true -> no_referencesb (checked_of plain src) = true -> generated src = true ->
  result f any1 any2 src = Some (Some z, []) -> main_result toy (code_of src) g [] = Some (Some x, []) -> x <> V (SvInt z) -> runs_wrong src z x.
Proof.
  intros f g src z x Q1 Q2 Q3 Q4 Q5 Q6 Q7 Q8.
  split; [exact (compiles_accepted _ _ Q1)|]. split; [exact (no_call_blocks_of _ Q2)|]. split; [exact (few_arguments_of _ Q3)|].
  split; [exact (no_references_of _ Q4)|]. split; [exact (generated_code _ Q5)|]. split; [exact (result_exits_any _ _ _ _ Q6)|]. split; [exists g; exact Q7|].
  apply (module_exits_not toy _ g _ _ _ _ _ Q7). left. congruence.
Qed.
Theorem code_runs_refuted : runs_wrong halves 3%Z Poison /\ runs_wrong again 3%Z (V (SvInt 6)) /\ runs_wrong power 1%Z (V (SvInt 2)).
Proof.
  split; [|split]; (apply (runs_wrong_of 200 200); [vm_compute; reflexivity|vm_compute; reflexivity|vm_compute; reflexivity|vm_compute; reflexivity|vm_compute; reflexivity|vm_compute; reflexivity|vm_compute; reflexivity|congruence]).
Qed.
Print Assumptions code_runs_refuted.

(** The helper for powers of floats is a variable that the code takes for a function: the program
    ends with 0 after Spec_Run.v, the code has no result. *)
Definition float_power : text :=
  line "mut x := 2.0" ++
  line "x = x ^ 3.0" ++
  line "return 0".
Theorem float_powers_refuted :
  accepted plain float_power (tokens_of float_power) (tree_of plain float_power) (state_of plain float_power) (checked_of plain float_power) /\
  exits toy (s_syms (state_of plain float_power)) (fun _ _ => True) (fun _ _ _ => True) (checked_of plain float_power) [] 0%Z [] /\
  exists M, gen_module toy unfolded (s_syms (state_of plain float_power)) false (checked_of plain float_power) = Ok M /\ forall code o, ~ module_exits toy M [] code o.
Proof.
  split; [apply compiles_accepted; vm_compute; reflexivity|]. split; [apply (result_exits_any 200); vm_compute; reflexivity|].
  destruct (gen_module toy unfolded (s_syms (state_of plain float_power)) false (checked_of plain float_power)) as [M|] eqn:G; [|exfalso; vm_compute in G; discriminate G].
  exists M. split; [reflexivity|].
  assert (R : match gen_module toy unfolded (s_syms (state_of plain float_power)) false (checked_of plain float_power) with
    | Ok m => main_stuck toy m 200 [] | UB => false end = true) by (vm_compute; reflexivity).
  rewrite G in R. intros code o. exact (main_stuck_no toy M 200 [] code o R).
Qed.
Print Assumptions float_powers_refuted.

(** With references, debug information changes what a program does: a function reads what its
    parameter refers to through the parameter, for which there is memory in debug builds only.
    Without, the number that the parameter refers to is taken for an address. *)
Definition behind_reference : text :=
  line "get(p: &Int) Int {" ++
  line "  return *p" ++
  line "}" ++
  line "mut x := 5" ++
  line "x = x + 1" ++
  line "return get(&x)".
Theorem debug_changes_results_refuted : exists M1 M2,
  accepted plain behind_reference (tokens_of behind_reference) (tree_of plain behind_reference) (state_of plain behind_reference) (checked_of plain behind_reference) /\
  gen_module toy unfolded (s_syms (state_of plain behind_reference)) true (checked_of plain behind_reference) = Ok M1 /\ module_exits toy M1 [] 6%Z [] /\
  gen_module toy unfolded (s_syms (state_of plain behind_reference)) false (checked_of plain behind_reference) = Ok M2 /\ forall code o, ~ module_exits toy M2 [] code o.
Proof.
  destruct (gen_module toy unfolded (s_syms (state_of plain behind_reference)) true (checked_of plain behind_reference)) as [M1|] eqn:G1; [|exfalso; vm_compute in G1; discriminate G1].
  destruct (gen_module toy unfolded (s_syms (state_of plain behind_reference)) false (checked_of plain behind_reference)) as [M2|] eqn:G2; [|exfalso; vm_compute in G2; discriminate G2].
  exists M1, M2. split; [apply compiles_accepted; vm_compute; reflexivity|]. split; [reflexivity|].
  assert (R1 : match gen_module toy unfolded (s_syms (state_of plain behind_reference)) true (checked_of plain behind_reference) with
    | Ok m => main_result toy m 200 [] | UB => None end = Some (Some (V (SvInt 6)), [])) by (vm_compute; reflexivity).
  assert (R2 : match gen_module toy unfolded (s_syms (state_of plain behind_reference)) false (checked_of plain behind_reference) with
    | Ok m => main_stuck toy m 200 [] | UB => false end = true) by (vm_compute; reflexivity).
  rewrite G1 in R1. rewrite G2 in R2. split; [exact (module_exits_of toy M1 200 [] 6%Z [] R1)|]. split; [reflexivity|].
  intros code o. exact (main_stuck_no toy M2 200 [] code o R2).
Qed.
Print Assumptions debug_changes_results_refuted.
