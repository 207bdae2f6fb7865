(** The command line as the manual describes it. *)
From Coq Require Import List NArith Bool Ascii String.
From Verif Require Import Base Spec_Names Model_Cli.
Import ListNotations.
Open Scope list_scope.
Open Scope N_scope.

(** How an option is written. An optimisation level may be followed by anything:
    that is what the program accepts. *)
Inductive spelled : flag -> text -> Prop :=
| sp_c : spelled FCompileOnly (u "-c")
| sp_S : spelled FAsm (u "-S")
| sp_E : spelled FPreprocess (u "-E")
| sp_g : spelled FDebug (u "-g")
| sp_q : spelled FQuiet (u "-q")
| sp_O1 : forall r, spelled FO1 (u "-O1" ++ r)
| sp_O2 : forall r, spelled FO2 (u "-O2" ++ r)
| sp_O3 : forall r, spelled FO3 (u "-O3" ++ r)
| sp_cb : spelled FCBackend (u "--c-backend")
| sp_we : spelled FWerror (u "--werror")
| sp_nv : spelled FNoVerify (u "--llvm-no-verify")
| sp_co : spelled FColor (u "--color").

(** One item of a command line. *)
Inductive item :=
| IFlag (f : flag)
| IFile (name : text)
| IOut (name : text).

(** An item and the arguments it is written as. *)
Inductive written : item -> list text -> Prop :=
| w_flag : forall f s, spelled f s -> written (IFlag f) [s]
| w_file : forall s, hd 0 s <> chr "-" -> written (IFile s) [s]
| w_out : forall s, written (IOut s) [u "-o"; s].

(** A whole command line: items, then possibly "--" and at least one extra argument. *)
Inductive command : list item -> list text -> list text -> Prop :=
| cmd_end : command [] [] []
| cmd_extra : forall e es, command [] (e :: es) (u "--" :: e :: es)
| cmd_item : forall i args its ex rest,
    written i args -> command its ex rest -> command (i :: its) ex (args ++ rest).

(** The options, file names and output names in a list of items. *)
Definition flags_of (its : list item) : list flag :=
  flat_map (fun i => match i with IFlag f => [f] | _ => [] end) its.
Definition files_of (its : list item) : list text :=
  flat_map (fun i => match i with IFile f => [f] | _ => [] end) its.
Definition outs_of (its : list item) : list text :=
  flat_map (fun i => match i with IOut f => [f] | _ => [] end) its.

(** Options that contradict each other. *)
Inductive clash : flag -> flag -> Prop :=
| cl_o12 : clash FO1 FO2
| cl_o13 : clash FO1 FO3
| cl_o23 : clash FO2 FO3
| cl_cb : clash FCBackend FNoVerify
| cl_q : clash FQuiet FWerror
| cl_s : clash FAsm FCBackend
| cl_ES : clash FPreprocess FAsm
| cl_Ec : clash FPreprocess FCompileOnly
| cl_Sc : clash FAsm FCompileOnly.

(** What a command line has to satisfy to be accepted. *)
Definition acceptable (color_set : bool) (its : list item) : Prop :=
  NoDup (flags_of its) /\
  (List.length (outs_of its) <= 1)%nat /\
  (color_set = true -> ~ In FColor (flags_of its)) /\
  (forall f g, clash f g -> ~ (In f (flags_of its) /\ In g (flags_of its))) /\
  exists f, last (map Some (files_of its)) None = Some f /\
            exists p r, f = p ++ u ".sk" ++ r.

(** The settings a command line asks for. *)
Definition asks_for (color : option text) (its : list item) (ex : list text) (b : build_data) : Prop :=
  (forall f, get_flag b f = true <->
     In f (flags_of its) \/ (f = FColor /\ exists t, color = Some (chr "1" :: t))) /\
  bd_filename b = last (map Some (files_of its)) None /\
  bd_out_file b = hd_error (outs_of its) /\
  bd_extra_args b = match ex with [] => None | _ => Some (joined ex) end.

(** Whether the environment variable COLOR is set. *)
Definition is_set (color : option text) : bool := match color with Some _ => true | None => false end.

(** The arguments that ask for help or for the version. *)
Definition help_word (a : text) : Prop :=
  a = u "-h" \/ a = u "-v" \/ a = u "--help" \/ a = u "--version".
