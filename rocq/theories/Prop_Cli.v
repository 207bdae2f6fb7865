(** C35: command line. *)
From Coq Require Import List NArith String Ascii Permutation.
From Verif Require Import Base Model_Names Spec_Names Model_Cli Spec_Cli Proof_Cli.
Import ListNotations.
Open Scope list_scope.
Open Scope N_scope.

(** A command line is carried out exactly when it is acceptable (no option twice,
    at most one -o, no contradicting options, --color only when COLOR is unset, a
    source name with ".sk"), and then with exactly the settings asked for;
    otherwise the program leaves with code 1. *)
Theorem command_line_checked :
  forall color its ex args, command its ex args -> args <> [] ->
  Forall nz ex -> N.of_nat (List.length (joined ex)) < 2 ^ 63 ->
  (acceptable (is_set color) its /\ exists b, cli_main color args = Go b /\ asks_for color its ex b) \/
  (~ acceptable (is_set color) its /\ cli_main color args = Exit 1).
Proof. exact cli_ok. Qed.
Print Assumptions command_line_checked.

Example command_line_checked_ex :
  command [IFlag FDebug; IFile (u "a.sk"); IFlag FO2; IOut (u "x")] [u "-lm"]
    [u "-g"; u "a.sk"; u "-O2"; u "-o"; u "x"; u "--"; u "-lm"] /\
  (exists b, cli_main None [u "-g"; u "a.sk"; u "-O2"; u "-o"; u "x"; u "--"; u "-lm"] = Go b) /\
  cli_main None [u "-g"; u "a.sk"; u "-g"] = Exit 1 /\
  cli_main None [u "-q"; u "a.sk"; u "--werror"] = Exit 1 /\
  cli_main (Some (u "0")) [u "--color"; u "a.sk"] = Exit 1.
Proof.
  split; [|vm_compute; repeat split; eauto].
  apply (cmd_item (IFlag FDebug) [u "-g"]); [repeat constructor|].
  apply (cmd_item (IFile (u "a.sk")) [u "a.sk"]); [constructor; vm_compute; discriminate|].
  apply (cmd_item (IFlag FO2) [u "-O2"]); [constructor; apply (sp_O2 [])|].
  apply (cmd_item (IOut (u "x")) [u "-o"; u "x"]); [constructor|]. constructor.
Qed.

(** Nothing but such a command line is ever carried out. *)
Theorem only_command_lines_accepted :
  forall color args b, Forall nz args -> cli_main color args = Go b ->
  exists its ex, command its ex args.
Proof. exact cli_inv. Qed.
Print Assumptions only_command_lines_accepted.

Example only_command_lines_accepted_ex :
  cli_main None [u "-cS"; u "a.sk"] = Exit 1 /\ cli_main None [u "--bogus"; u "a.sk"] = Exit 1 /\
  cli_main None [u "a.sk"; u "-o"] = Exit 1 /\ cli_main None [u "-"; u "a.sk"] = Exit 1 /\
  exists b, cli_main None [u "-c"; u "a.sk"] = Go b.
Proof. vm_compute. repeat split. eauto. Qed.

(** The order of options does not matter. *)
Theorem option_order_irrelevant :
  forall color its1 its2 ex args1 args2 b,
  command its1 ex args1 -> command its2 ex args2 ->
  Permutation its1 its2 -> (List.length (files_of its1) <= 1)%nat ->
  Forall nz ex -> N.of_nat (List.length (joined ex)) < 2 ^ 63 ->
  cli_main color args1 = Go b -> cli_main color args2 = Go b.
Proof. exact cli_order. Qed.
Print Assumptions option_order_irrelevant.

Example option_order_irrelevant_ex :
  cli_main None [u "-o"; u "x"; u "-g"; u "a.sk"; u "--c-backend"] =
  cli_main None [u "--c-backend"; u "a.sk"; u "-o"; u "x"; u "-g"].
Proof. vm_compute. reflexivity. Qed.

(** The program leaves with code 0 before compiling only when there are no
    arguments or help or the version was asked for. *)
Theorem silent_success_only_for_help :
  forall color args, Forall nz args -> cli_main color args = Exit 0 ->
  args = [] \/ exists a, In a args /\ help_word a.
Proof. exact cli_exit0. Qed.
Print Assumptions silent_success_only_for_help.

Example silent_success_only_for_help_ex : cli_main None [u "a.sk"; u "--help"] = Exit 0.
Proof. vm_compute. reflexivity. Qed.

(** What is false: an optimisation option with trailing characters is accepted. *)
Theorem trailing_garbage_rejected_refuted :
  exists b, cli_main None [u "-O1garbage"; u "a.sk"] = Go b.
Proof. vm_compute. eauto. Qed.
Print Assumptions trailing_garbage_rejected_refuted.
