(** What debug builds tell debuggers about variables. *)
From Coq Require Import List Arith NArith ZArith Bool Lia Ascii String.
From Verif Require Import Base Model_Token Model_Literal Model_Parse Spec_Parse Model_Sem Spec_Sem Spec_Sem2 Proof_Sem Proof_SemEx Prop_Sem
  Model_Where Spec_Where Proof_Where Model_Vars Spec_Vars Proof_Vars.
Import ListNotations.
Open Scope list_scope.
Open Scope N_scope.

(** The variables that are described are just those of definitions and functions that can be reached, each
    in the scope around its definition. *)
Theorem variables_are_described : forall ys l r, In r (gen_module_v ys l) <->
  exists path n, reached ys l path n /\ describes ys (scope_at (ScFun None) path) (function_at None path) n r.
Proof. exact module_recs. Qed.
Print Assumptions variables_are_described.

(** Variables with a scope are in the function that their record is put into; those without are in the main program. *)
Theorem variables_are_in_functions : forall ys l r, In r (gen_module_v ys l) ->
  match r_scope r with Some c => subprogram c = r_func r /\ r_func r <> None | None => r_func r = None /\ r_place r = PGlobal end.
Proof.
  intros ys l r H. apply variables_are_described in H as (path & n & _ & D). pose proof (scope_function path (ScFun None) None eq_refl) as E.
  remember (function_at None path) as f eqn:F. destruct D as [tok k e ch n0 L|g tok k e ch n0 p L P|f tok g ks ch i k n0 O N L]; cbn [r_scope r_func r_place subprogram].
  - auto.
  - split; [exact E|discriminate].
  - split; [reflexivity|discriminate].
Qed.
Print Assumptions variables_are_in_functions.

(** All but the constants of functions are described by their address. *)
Theorem variables_have_addresses : forall ys l r, In r (gen_module_v ys l) ->
  (addressable r <-> ~ (r_arg r = 0%nat /\ r_func r <> None /\ constant ys (r_sym r))).
Proof.
  intros ys l r H. apply variables_are_described in H as (path & n & _ & D). unfold addressable.
  destruct D as [tok k e ch n0 L|g tok k e ch n0 p L P|f tok g ks ch i k n0 O N L]; cbn [r_arg r_func r_sym r_place].
  - split; [intros _ (_ & A & _); now apply A|discriminate].
  - destruct P as [(C & ->)|(C & ->)]; split.
    + intro A. now destruct A.
    + intro A. destruct A. split; [reflexivity|]. split; [discriminate|exact C].
    + intros _ (_ & _ & A). exact (C A).
    + discriminate.
  - split; [intros _ (A & _); discriminate A|discriminate].
Qed.
Print Assumptions variables_have_addresses.

(** * Examples *)

Definition keeps_some : text :=
  line "f(a: Int, b: Int) Int {" ++
  line "  mut i := a" ++
  line "  while i < 3 {" ++
  line "    c := i + b" ++
  line "    i = c" ++
  line "  }" ++
  line "  return i" ++
  line "}" ++
  line "x := f(1, 2)" ++
  line "if x is 5 {" ++
  line "  f(x, x)" ++
  line "}".
Definition recs_in (src : text) : list vrec := gen_module_v (s_syms (state_of plain src)) (checked_of plain src).

Example variables_are_described_ex :
  compiles plain keeps_some = true /\
  In (mkvrec 3 2 (Some (ScFun (Some 1%nat))) 1 PCell (Some 1%nat)) (recs_in keeps_some) /\
  In (mkvrec 4 0 (Some (ScFun (Some 1%nat))) 2 PCell (Some 1%nat)) (recs_in keeps_some) /\
  In (mkvrec 6 0 None 9 PGlobal None) (recs_in keeps_some).
Proof. split; [vm_compute; reflexivity|]. split; [vm_compute; tauto|]. split; vm_compute; tauto. Qed.
Example variables_are_in_functions_ex : exists r, In r (recs_in keeps_some) /\
  r_scope r = Some (ScBlock (ScFun (Some 1%nat)) (mkloc 3 3)) /\ r_func r = Some 1%nat.
Proof. exists (mkvrec 5 0 (Some (ScBlock (ScFun (Some 1%nat)) (mkloc 3 3))) 4 PValue (Some 1%nat)). split; [vm_compute; tauto|]. split; reflexivity. Qed.
Example variables_have_addresses_ex : exists r, In r (recs_in keeps_some) /\ r_func r = Some 1%nat /\ r_arg r = 0%nat /\ addressable r.
Proof. exists (mkvrec 4 0 (Some (ScFun (Some 1%nat))) 2 PCell (Some 1%nat)). split; [vm_compute; tauto|]. split; [reflexivity|]. split; [reflexivity|discriminate]. Qed.

(** Constants of functions are described by their value, where debuggers expect an address. *)
Theorem variables_have_addresses_refuted : exists src r, compiles plain src = true /\ In r (recs_in src) /\ ~ addressable r.
Proof.
  exists keeps_some, (mkvrec 5 0 (Some (ScBlock (ScFun (Some 1%nat)) (mkloc 3 3))) 4 PValue (Some 1%nat)).
  split; [vm_compute; reflexivity|]. split; [vm_compute; tauto|]. intro A. now apply A.
Qed.
Print Assumptions variables_have_addresses_refuted.
