(** C33, C34, C40, C41, C42: names of files and symbols. *)
From Coq Require Import List NArith String Ascii.
From Verif Require Import Base Model_Names Spec_Names Proof_Names.
Import ListNotations.
Open Scope list_scope.
Open Scope N_scope.

(** C34. The intermediate file of a source is its hidden sibling, and building the
    name never touches memory outside the buffer. *)
Theorem output_name_is_hidden_sibling :
  forall path ext, nz path -> nz ext ->
  exists out, gen_filename path ext = Ok out /\ hidden_sibling ext path out.
Proof. exact gen_total. Qed.
Print Assumptions output_name_is_hidden_sibling.

Example output_name_is_hidden_sibling_ex :
  gen_filename (u "a/b/c.sk") (u "ll") = Ok (u "a/b/.c.sk.ll") /\
  gen_filename (u "c.sk") (u "o") = Ok (u ".c.sk.o") /\
  gen_filename (u "a/") (u "o") = Ok (u "a/..o").
Proof. vm_compute. auto. Qed.

(** C34. Two different sources, or two different extensions, never share a file. *)
Theorem output_names_never_shared :
  forall e1 p1 e2 p2 o, nz p1 -> nz e1 -> nz p2 -> nz e2 ->
  ~ In (chr ".") e1 -> ~ In (chr ".") e2 -> ~ In (chr "/") e1 -> ~ In (chr "/") e2 ->
  gen_filename p1 e1 = Ok o -> gen_filename p2 e2 = Ok o -> p1 = p2 /\ e1 = e2.
Proof. exact gen_inj. Qed.
Print Assumptions output_names_never_shared.

Example output_names_never_shared_ex :
  gen_filename (u "a/b.sk") (u "c") <> gen_filename (u "a/.b.sk") (u "c").
Proof. vm_compute. discriminate. Qed.

(** C34. The intermediate file never is a source file (a path ending in ".sk"). *)
Theorem output_name_never_a_source :
  forall path ext out src, nz path -> nz ext -> ~ In (chr ".") ext -> ext <> u "sk" ->
  gen_filename path ext = Ok out -> out <> src ++ u ".sk".
Proof. exact gen_not_source. Qed.
Print Assumptions output_name_never_a_source.

Example output_name_never_a_source_ex :
  exists out, gen_filename (u "x.sk") (u "s") = Ok out /\ out = u ".x.sk.s".
Proof. eexists. vm_compute. auto. Qed.

(** C34, what is false: with an explicit output name the source itself can be
    chosen and is then overwritten. *)
Theorem explicit_output_spares_source_refuted :
  ~ (forall out_file preprocess c_backend src ext out,
       get_new_filename out_file preprocess c_backend src ext = Ok out -> out <> src).
Proof.
  intro H. apply (H (Some (u "a.sk")) false true (u "a.sk") (u "c") (u "a.sk")); reflexivity.
Qed.
Print Assumptions explicit_output_spares_source_refuted.

(** C33. The linkage name of an exported symbol is module, dot, name. *)
Theorem export_name_is_module_dot_name :
  forall path m name, has_base path (m ++ u ".sk") ->
  nz m -> nz name -> fits m -> fits name ->
  mangle_name path name = Ok (m ++ chr "." :: name).
Proof. exact mangle_ok. Qed.
Print Assumptions export_name_is_module_dot_name.

Example export_name_is_module_dot_name_ex :
  has_base (u "dir/mod.sk") (u "mod" ++ u ".sk") /\
  mangle_name (u "dir/mod.sk") (u "f") = Ok (u "mod.f").
Proof.
  split; [|vm_compute; reflexivity]. split.
  - cbn. intros H. repeat (destruct H as [H|H]; [discriminate|]). exact H.
  - right. exists (u "dir"). reflexivity.
Qed.

(** C33. Two exports clash only when module and name are the same. *)
Theorem export_names_clash_only_if_same :
  forall path1 m1 n1 path2 m2 n2 o,
  has_base path1 (m1 ++ u ".sk") -> has_base path2 (m2 ++ u ".sk") ->
  nz m1 -> nz m2 -> nz n1 -> nz n2 -> fits m1 -> fits m2 -> fits n1 -> fits n2 ->
  ~ In (chr ".") n1 -> ~ In (chr ".") n2 ->
  mangle_name path1 n1 = Ok o -> mangle_name path2 n2 = Ok o -> m1 = m2 /\ n1 = n2.
Proof. exact mangle_inj. Qed.
Print Assumptions export_names_clash_only_if_same.

Example export_names_clash_only_if_same_ex :
  mangle_name (u "x/a.b.sk") (u "c") = Ok (u "a.b.c") /\
  mangle_name (u "a.sk") (u "bc") = Ok (u "a.bc").
Proof. vm_compute. auto. Qed.

(** C33. The initialiser of a module is called ".module" ... *)
Theorem module_init_name :
  forall path m, has_base path (m ++ u ".sk") -> nz m -> fits m ->
  create_main_func_name (Some path) = Ok (chr "." :: m).
Proof. exact main_name_ok. Qed.
Print Assumptions module_init_name.

Example module_init_name_ex : create_main_func_name (Some (u "x/mod.sk")) = Ok (u ".mod").
Proof. vm_compute. reflexivity. Qed.

(** ... and never clashes with an export of a module that is not a dot file. *)
Theorem module_init_never_clashes_with_export :
  forall path1 m1 path2 m2 name o,
  has_base path1 (m1 ++ u ".sk") -> has_base path2 (m2 ++ u ".sk") ->
  nz m1 -> nz m2 -> nz name -> fits m1 -> fits m2 -> fits name ->
  m2 <> [] -> hd 0 m2 <> chr "." ->
  create_main_func_name (Some path1) = Ok o -> mangle_name path2 name <> Ok o.
Proof. exact main_no_clash. Qed.
Print Assumptions module_init_never_clashes_with_export.

(** The dot file condition is needed: `.a.sk` exporting `b` clashes with `a.b.sk`. *)
Example module_init_never_clashes_with_export_ex :
  create_main_func_name (Some (u "a.b.sk")) = Ok (u ".a.b") /\
  mangle_name (u ".a.sk") (u "b") = Ok (u ".a.b") /\
  mangle_name (u "a.sk") (u "b") = Ok (u "a.b").
Proof. vm_compute. auto. Qed.

(** C42. The last occurrence of a text in another is found, or none exists. *)
Theorem last_occurrence_found :
  forall s sub i, strrstr s sub = Some i <->
  (exists p r, s = p ++ sub ++ r /\ List.length p = i) /\
  (forall p r, s = p ++ sub ++ r -> (List.length p <= i)%nat).
Proof. exact strrstr_some. Qed.
Print Assumptions last_occurrence_found.

Example last_occurrence_found_ex : strrstr (u "a.sk.sk") (u ".sk") = Some 4%nat.
Proof. vm_compute. reflexivity. Qed.

(** C42. Exactly these names are compiled: ".sk" occurs after the first character
    and "/.sk" does not occur. *)
Theorem accepted_source_names :
  forall path, name_accepted path = true <->
  (exists p r, path = p ++ u ".sk" ++ r /\ p <> []) /\ ~ (exists p r, path = p ++ u "/.sk" ++ r).
Proof. exact name_accepted_iff. Qed.
Print Assumptions accepted_source_names.

Example accepted_source_names_ex :
  name_accepted (u "d/a.sk") = true /\ name_accepted (u "d/.sk") = false /\
  name_accepted (u ".sk") = false /\ name_accepted (u "a.txt") = false.
Proof. vm_compute. auto. Qed.

(** C42, what is false: an accepted name need not end in ".sk". *)
Theorem accepted_names_end_in_sk_refuted :
  exists path, name_accepted path = true /\ forall p, path <> p ++ u ".sk".
Proof.
  exists (u "a.skx"). split; [vm_compute; reflexivity|].
  intros p E. apply (f_equal (@rev N)) in E. rewrite rev_app_distr in E. discriminate.
Qed.
Print Assumptions accepted_names_end_in_sk_refuted.

(** C42, what is false: an accepted name can make both symbol name builders write
    outside their buffer. *)
Theorem accepted_names_are_safe_refuted :
  exists path, name_accepted path = true /\
    create_main_func_name (Some path) = UB /\ mangle_name path (u "f") = UB.
Proof. exists (u "x.sk/b"). vm_compute. auto. Qed.
Print Assumptions accepted_names_are_safe_refuted.

(** C40. Arguments after "--" are passed on joined by blanks, in order, complete. *)
Theorem extra_arguments_joined :
  forall l, l <> [] -> Forall nz l -> N.of_nat (List.length (joined l)) < 2 ^ 63 ->
  squash_argv l = Ok (joined l).
Proof. exact squash_ok. Qed.
Print Assumptions extra_arguments_joined.

Example extra_arguments_joined_ex :
  squash_argv [u "-O2"; u ""; u "x.o"] = Ok (u "-O2  x.o").
Proof. vm_compute. reflexivity. Qed.

(** C41. An import of `m` from a file in directory `dir` opens `m.sk` in `dir`. *)
Theorem import_looks_beside_importer :
  forall dir base m, nz dir -> dir <> [] -> ~ In (chr "/") base -> nz m ->
  current_file_dir (dir ++ chr "/" :: base) = Ok dir /\ filename_for_module m = Ok (m ++ u ".sk").
Proof. exact (fun dir base m H1 H2 H3 H4 => conj (cur_dir_ok dir base H1 H2 H3) (module_file_ok m H4)). Qed.
Print Assumptions import_looks_beside_importer.

Example import_looks_beside_importer_ex :
  current_file_dir (u "a/b/c.sk") = Ok (u "a/b") /\ filename_for_module (u "m") = Ok (u "m.sk").
Proof. vm_compute. auto. Qed.

(** C41. ... and from a file given without directory, in the current directory. *)
Theorem import_from_plain_name :
  forall base, base <> [] -> ~ In (chr "/") base -> current_file_dir base = Ok (u ".").
Proof. exact cur_dir_plain. Qed.
Print Assumptions import_from_plain_name.

Example import_from_plain_name_ex : current_file_dir (u "c.sk") = Ok (u ".").
Proof. vm_compute. reflexivity. Qed.

(** C41, what is false: a file in the root directory imports from the current
    directory instead. *)
Theorem import_from_root_refuted :
  forall base, base <> [] -> ~ In (chr "/") base ->
  current_file_dir (chr "/" :: base) = Ok (u ".").
Proof. exact cur_dir_root. Qed.
Print Assumptions import_from_root_refuted.

Example import_from_root_refuted_ex : current_file_dir (u "/c.sk") = Ok (u ".").
Proof. vm_compute. reflexivity. Qed.

(** C34. The binary is named after the source without its last extension. *)
Theorem binary_name_drops_extension :
  forall p q, nz p -> ~ In (chr ".") q -> get_binary_name (p ++ chr "." :: q) = Ok p.
Proof. exact binary_name_ok. Qed.
Print Assumptions binary_name_drops_extension.

Example binary_name_drops_extension_ex : get_binary_name (u "d/prog.sk") = Ok (u "d/prog").
Proof. vm_compute. reflexivity. Qed.
