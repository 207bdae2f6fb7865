(** C52: the command that links a program. *)
From Coq Require Import List Arith NArith ZArith Bool Ascii String.
From Verif Require Import Base Spec_Parse Model_Names Spec_Names Model_Cli Spec_Cli Spec_Run Spec_IR Model_LLVM Model_Pipeline Spec_Pipeline
  Spec_Shell Proof_Shell Prop_LLVM Prop_Pipeline.
Import ListNotations.
Open Scope list_scope.
Open Scope N_scope.

(** If no name on the command line has a character that is special between double quotes and the
    extra arguments are plain words, then every command that is run is one call of `cc`, whose
    arguments are the names and the extra arguments as they were given. *)
Theorem linker_gets_its_arguments :
  forall H fold x color argv its ex code e n cmd,
  Forall nz argv -> command its ex argv -> N.of_nat (List.length (joined ex)) < 2 ^ 63 ->
  skull_main H fold x color argv = Ok (code, e, n) -> In (Ran H cmd) e ->
  (forall f, In f (files_of its) -> quotable f) -> (forall f, In f (outs_of its) -> quotable f) -> Forall plain_word ex ->
  exists file object binary ext, In file (files_of its) /\ file = binary ++ chr "." :: ext /\ ~ In (chr ".") ext /\
    (In object (outs_of its) \/ hidden_sibling (u "o") file object) /\
    shell cmd = Some [[u "cc"; u "-nostartfiles"; object; u "-o"; binary] ++ ex ++ [u "-I/usr/include/skull"; u "-lm"]].
Proof. exact commands_l. Qed.
Print Assumptions linker_gets_its_arguments.

(** An outside where every file holds the same program. *)
Definition everywhere : outside toy :=
  mkoutside toy (fun f => files (u "a.sk")) (fun f => true) (fun _ _ => false) (fun _ => false) (fun _ => Ok false)
    (fun _ => false) (fun _ => u "0x0p+0") (fun _ => true) (fun _ => true) (fun _ => true) (fun _ m => m) true
    (fun _ => true) (fun _ _ => true) (fun _ => Exited 0).

(** What the shell makes of the commands of a run. *)
Definition commands (argv : list text) : list (option (list (list text))) :=
  match skull everywhere argv with
  | Ok (_, e, _) => flat_map (fun v => match v with Ran _ c => [shell c] | _ => [] end) e
  | UB => []
  end.

Example linker_gets_its_arguments_ex :
  commands [u "my dir/it's.sk"; u "--"; u "-DX=1"; u "-s"] =
    [Some [[u "cc"; u "-nostartfiles"; u "my dir/.it's.sk.o"; u "-o"; u "my dir/it's"; u "-DX=1"; u "-s";
            u "-I/usr/include/skull"; u "-lm"]]] /\
  command [IFile (u "my dir/it's.sk")] [u "-DX=1"; u "-s"] [u "my dir/it's.sk"; u "--"; u "-DX=1"; u "-s"] /\
  quotable (u "my dir/it's.sk") /\ Forall plain_word [u "-DX=1"; u "-s"].
Proof.
  split; [vm_compute; reflexivity|]. split.
  { apply (cmd_item (IFile (u "my dir/it's.sk")) [u "my dir/it's.sk"]); [constructor; vm_compute; discriminate|constructor]. }
  split; [repeat constructor; discriminate|]. repeat (constructor; [split; [discriminate|repeat constructor; discriminate]|]). constructor.
Qed.

(** What is false: without the restriction the name of a file can run another command, and an
    extra argument with a blank in it is two arguments. *)
Theorem linker_gets_its_arguments_refuted :
  commands [u "a"";rm x;"".sk"] =
    [Some [[u "cc"; u "-nostartfiles"; u ".a"]; [u "rm"; u "x"]; [u ".sk.o"; u "-o"; u "a"]; [u "rm"; u "x"];
           [u ""; u "-I/usr/include/skull"; u "-lm"]]] /\
  commands [u "a.sk"; u "--"; u "-L my lib"] =
    [Some [[u "cc"; u "-nostartfiles"; u ".a.sk.o"; u "-o"; u "a"; u "-L"; u "my"; u "lib"; u "-I/usr/include/skull"; u "-lm"]]].
Proof. vm_compute. repeat split. Qed.
Print Assumptions linker_gets_its_arguments_refuted.
