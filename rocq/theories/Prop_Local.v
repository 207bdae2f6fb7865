(** Source files are read as UTF-8. *)
From Coq Require Import List Arith NArith Bool Lia Ascii String.
From Verif Require Import Base Model_Utf8 Spec_Utf8 Proof_Utf8 Model_Local Spec_Local Proof_Local.
Import ListNotations.
Open Scope list_scope.
Open Scope N_scope.

(** * Systems for the examples *)

Definition utf8_next (s : text) : step :=
  match mbrtoc32 s with Some (c, rest) => SChar c (List.length s - List.length rest) | None => SIllegal end.
Lemma utf8_next_ok : forall n, utf8_locale (mklocale n utf8_next).
Proof.
  intros n s _. cbn [lc_next]. split.
  - intros c bs rest E ->. unfold utf8_next. rewrite (mbrtoc32_encodes _ _ _ E), app_length. f_equal. lia.
  - intro NO. unfold utf8_next. destruct (mbrtoc32 s) as [(c, rest)|] eqn:M; [|reflexivity]. apply mbrtoc32_some in M as (bs & E & EN & _). destruct (NO _ _ _ EN E).
Qed.
(** ISO-8859-1, and the locale "C" of glibc. *)
Definition latin1_next (s : text) : step := match s with c :: _ => SChar c 1 | [] => SIllegal end.
Definition ascii_next (s : text) : step := match s with c :: _ => if c <? 128 then SChar c 1 else SIllegal | [] => SIllegal end.

(** A machine with four locales, and what the environment asks for. *)
Definition machine (wanted : text) : system := fun n =>
  let n := match n with [] => wanted | _ => n end in
  if text_eqb n (u "C") then Some (mklocale n ascii_next)
  else if text_eqb n (u "C.UTF-8") || text_eqb n (u "de_DE.UTF-8") then Some (mklocale n utf8_next)
  else if text_eqb n (u "de_DE") then Some (mklocale n latin1_next)
  else None.
Lemma machine_honest : forall wanted, honest (machine wanted).
Proof. intros wanted l E. injection E as <-. apply utf8_next_ok. Qed.
Lemma machine_ascii : forall wanted n l, machine wanted n = Some l -> ascii_locale l.
Proof.
  intros wanted n l E c r C. unfold machine in E. revert E. generalize (match n with [] => wanted | _ => n end). intros m E.
  repeat match type of E with (if ?b then _ else _) = _ => destruct b end; try discriminate E; injection E as <-; cbn [lc_next].
  - unfold ascii_next. apply proj2, N.ltb_lt in C. now rewrite C.
  - unfold utf8_next, mbrtoc32. assert (L : (c <=? 127) = true) by (apply N.leb_le; lia). rewrite L. f_equal. cbn [List.length]. lia.
  - reflexivity.
Qed.

(** * Theorems *)

(** C66: if the environment names no locale, one that is not there, or one of UTF-8, then
    source files are read as UTF-8 and nothing else; the compiler only gives up if it has to
    fall back on C.UTF-8, and there is no such locale. *)
Theorem sources_are_utf8 : forall S str, honest S -> unset S \/ wants_utf8 S ->
  (exists t, utf8 t str /\ read_source S str = Some (Decoded t)) \/
  ((forall t, ~ utf8 t str) /\ exists i, read_source S str = Some (IllegalAt i)) \/
  (S (u "C.UTF-8") = None /\ unset S /\ read_source S str = None).
Proof. exact read_utf8. Qed.
Print Assumptions sources_are_utf8.
Example sources_are_utf8_ex : forall wanted, In wanted [u "C"; u "xx_XX"; u "de_DE.UTF-8"] ->
  (unset (machine wanted) \/ wants_utf8 (machine wanted)) /\ honest (machine wanted) /\
  read_source (machine wanted) [97; 195; 169] = Some (Decoded [97; 233]) /\
  read_source (machine wanted) [97; 233] = Some (IllegalAt 2).
Proof.
  intros wanted I. repeat destruct I as [<-|I]; try destruct I; (split; [|split; [apply machine_honest|split; vm_compute; reflexivity]]).
  - left. right. eexists. split; [reflexivity|reflexivity].
  - left. left. reflexivity.
  - right. eexists. split; [reflexivity|apply utf8_next_ok].
Qed.
Example sources_are_utf8_ex2 : forall S, (forall n, S n = None) -> honest S /\ unset S /\ forall str, read_source S str = None.
Proof.
  intros S E. split; [intros l L; rewrite E in L; discriminate L|]. split; [now left|]. intro str. unfold read_source, setup_locale. now rewrite !E.
Qed.

(** Files of ASCII characters are read as they are in all environments. *)
Theorem ascii_sources_are_read : forall S str, (forall n l, S n = Some l -> ascii_locale l) -> Forall (fun c => 0 < c < 128) str ->
  read_source S str = Some (Decoded str) \/ S (u "C.UTF-8") = None /\ unset S /\ read_source S str = None.
Proof. exact read_ascii. Qed.
Print Assumptions ascii_sources_are_read.
Example ascii_sources_are_read_ex : read_source (machine (u "de_DE")) (u "return 1") = Some (Decoded (u "return 1")).
Proof.
  destruct (ascii_sources_are_read (machine (u "de_DE")) (u "return 1") (machine_ascii _)) as [E|(E & _)]; [|exact E|discriminate E].
  repeat constructor.
Qed.

(** The environment names a locale that does not use UTF-8: the compiler uses it although
    C.UTF-8 is there. UTF-8 is misread, and files that are no UTF-8 are taken. *)
Theorem sources_are_utf8_refuted : exists S, honest S /\ (exists l, S (u "C.UTF-8") = Some l) /\
  (exists str t t', utf8 t str /\ read_source S str = Some (Decoded t') /\ t' <> t) /\
  (exists str t, (forall t', ~ utf8 t' str) /\ read_source S str = Some (Decoded t)).
Proof.
  exists (machine (u "de_DE")). split; [apply machine_honest|]. split; [eexists; reflexivity|]. split.
  - exists [195; 169], [233], [195; 169]. split; [apply encode_some_l; reflexivity|]. split; [reflexivity|discriminate].
  - exists [233], [233]. split; [|reflexivity]. intros t' U. apply decode_utf8_l in U. discriminate U.
Qed.
Print Assumptions sources_are_utf8_refuted.
