From Coq Require Import List Arith NArith Bool Lia Ascii String.
From Verif Require Import Base Model_Names Spec_Names Proof_Names Model_Cli Spec_Cli.
Import ListNotations.
Open Scope list_scope.
Open Scope N_scope.

Lemma flag_eqb_eq : forall a b, flag_eqb a b = true <-> a = b.
Proof. intros [] []; split; intro H; try reflexivity; discriminate. Qed.

Lemma get_raise : forall b f g, get_flag (raise_flag b f) g = get_flag b g || flag_eqb f g.
Proof. intros b f []; reflexivity. Qed.

Lemma get_set_filename : forall b t g, get_flag (set_filename b t) g = get_flag b g.
Proof. intros b t []; reflexivity. Qed.
Lemma get_set_out : forall b t g, get_flag (set_out_file b t) g = get_flag b g.
Proof. intros b t []; reflexivity. Qed.
Lemma get_set_extra : forall b t g, get_flag (set_extra_args b t) g = get_flag b g.
Proof. intros b t []; reflexivity. Qed.

(** What one written flag does. *)
Lemma handle_flag : forall ce b f s rest, spelled f s -> (ce = true -> f <> FColor) ->
  handle_args ce b (s :: rest) =
  if get_flag b f then Exit 1 else handle_args ce (raise_flag b f) rest.
Proof.
  intros ce b f s rest H Hc.
  destruct H; cbn [handle_args at_ nth u list_ascii_of_string map];
    try (cbn -[get_flag raise_flag handle_args]; unfold set_bool_flag; destruct (get_flag b _); reflexivity).
  - destruct ce; [exfalso; apply (Hc eq_refl); reflexivity|]. cbn -[get_flag raise_flag handle_args]. unfold set_bool_flag.
    destruct (get_flag b FColor); reflexivity.
Qed.

Lemma handle_color_env : forall b rest, handle_args true b (u "--color" :: rest) = Exit 1.
Proof. reflexivity. Qed.

Lemma handle_file : forall ce b s rest, hd 0 s <> chr "-" ->
  handle_args ce b (s :: rest) = handle_args ce (set_filename b s) rest.
Proof.
  intros ce b s rest H. cbn [handle_args].
  replace (at_ s 0) with (hd 0 s) by (destruct s; reflexivity).
  apply N.eqb_neq in H. unfold c_dash. rewrite H. reflexivity.
Qed.

Lemma handle_out : forall ce b s rest,
  handle_args ce b (u "-o" :: s :: rest) =
  match bd_out_file b with Some _ => Exit 1 | None => handle_args ce (set_out_file b s) rest end.
Proof. intros. reflexivity. Qed.

(** Settings reached after some items, from a start state. *)
Record after (b0 : build_data) (its : list item) (b : build_data) : Prop := {
  af_flags : forall f, get_flag b f = get_flag b0 f || existsb (flag_eqb f) (flags_of its);
  af_file : bd_filename b = last (map Some (files_of its)) (bd_filename b0);
  af_out : bd_out_file b = match outs_of its with [] => bd_out_file b0 | o :: _ => Some o end;
  af_extra : bd_extra_args b = bd_extra_args b0 }.

Lemma flag_eqb_sym : forall a b, flag_eqb a b = flag_eqb b a.
Proof. intros [] []; reflexivity. Qed.

(** Sufficient condition to get through all items. *)
Definition passable (ce : bool) (b0 : build_data) (its : list item) : Prop :=
  NoDup (flags_of its) /\ (forall f, In f (flags_of its) -> get_flag b0 f = false) /\
  (List.length (outs_of its) <= match bd_out_file b0 with None => 1 | Some _ => 0 end)%nat /\
  (ce = true -> ~ In FColor (flags_of its)).

Lemma existsb_flag : forall f l, existsb (flag_eqb f) l = true <-> In f l.
Proof.
  intros f l. rewrite existsb_exists. split.
  - intros (x & I & E). apply flag_eqb_eq in E. now subst.
  - intro I. exists f. split; [assumption|]. now apply flag_eqb_eq.
Qed.

Lemma last_cons_some : forall (l : list text) (x : text) d,
  last (map Some (x :: l)) d = last (map Some l) (Some x).
Proof.
  induction l as [|y l IH]; intros x d; [reflexivity|].
  cbn [map]. cbn [map] in IH.
  change (last (Some x :: Some y :: map Some l) d) with (last (Some y :: map Some l) d).
  rewrite (IH y d), (IH y (Some x)). reflexivity.
Qed.

Lemma run_items : forall its ex args, command its ex args -> forall ce b0,
  (passable ce b0 its /\ exists b tail, after b0 its b /\
     handle_args ce b0 args = handle_args ce b tail /\
     tail = match ex with [] => [] | _ => u "--" :: ex end) \/
  (~ passable ce b0 its /\ handle_args ce b0 args = Exit 1).
Proof.
  intros its ex args H. induction H as [|e es|i args its ex rest W C IH]; intros ce b0.
  - left. split.
    + repeat split; cbn; [constructor|intros f []|lia|intros _ []].
    + exists b0, []. repeat split. intro f. cbn. now rewrite orb_false_r.
  - left. split.
    + repeat split; cbn; [constructor|intros f []|lia|intros _ []].
    + exists b0, (u "--" :: e :: es). repeat split. intro f. cbn. now rewrite orb_false_r.
  - destruct W as [f s Sp|s Hs|s].
    + (* flag *)
      destruct (Bool.bool_dec ce true) as [Ce|Ce]; [destruct (flag_eqb f FColor) eqn:Ef|].
      * apply flag_eqb_eq in Ef. subst f ce. right. split.
        -- intros (_ & _ & _ & N). apply N; [reflexivity|]. now left.
        -- inversion Sp. cbn [app]. apply handle_color_env.
      * assert (Nf : f <> FColor) by (intro K; apply flag_eqb_eq in K; congruence).
        cbn [app]. rewrite (handle_flag ce b0 f s rest Sp) by auto.
        destruct (get_flag b0 f) eqn:G.
        -- right. split; [|reflexivity]. intros (_ & N & _). specialize (N f ltac:(now left)). congruence.
        -- destruct (IH ce (raise_flag b0 f)) as [(P & b & tl & A & E & T)|(P & E)].
           ++ left. split.
              ** destruct P as (P1 & P2 & P3 & P4). repeat split; cbn [flags_of flat_map app] in *.
                 --- constructor; [|assumption]. intro I. specialize (P2 f I).
                     rewrite get_raise, (proj2 (flag_eqb_eq f f) eq_refl), orb_true_r in P2. discriminate.
                 --- intros g [->|I]; [assumption|]. specialize (P2 g I). rewrite get_raise in P2.
                     now apply orb_false_iff in P2.
                 --- exact P3.
                 --- intros E1 [E2|I]; [congruence|]. now apply P4.
              ** exists b, tl. repeat split; try assumption; try apply A.
                 intro g. rewrite (af_flags _ _ _ A), get_raise. cbn [flags_of flat_map app existsb].
                 rewrite (flag_eqb_sym f g), orb_assoc. reflexivity.
           ++ right. split; [|assumption]. intro Q. apply P. destruct Q as (P1 & P2 & P3 & P4).
              cbn [flags_of flat_map app] in *. inversion P1; subst. repeat split; try assumption.
              ** intros g I. rewrite get_raise, (P2 g (or_intror I)). cbn [orb].
                 destruct (flag_eqb f g) eqn:Eg; [|reflexivity]. apply flag_eqb_eq in Eg. subst g. contradiction.
              ** intros E1 I. apply P4; [assumption|]. now right.
      * assert (ce = false) by (destruct ce; congruence). subst ce.
        cbn [app]. rewrite (handle_flag false b0 f s rest Sp) by discriminate.
        destruct (get_flag b0 f) eqn:G.
        -- right. split; [|reflexivity]. intros (_ & N & _). specialize (N f ltac:(now left)). congruence.
        -- destruct (IH false (raise_flag b0 f)) as [(P & b & tl & A & E & T)|(P & E)].
           ++ left. split.
              ** destruct P as (P1 & P2 & P3 & P4). repeat split; cbn [flags_of flat_map app] in *.
                 --- constructor; [|assumption]. intro I. specialize (P2 f I).
                     rewrite get_raise, (proj2 (flag_eqb_eq f f) eq_refl), orb_true_r in P2. discriminate.
                 --- intros g [->|I]; [assumption|]. specialize (P2 g I). rewrite get_raise in P2.
                     now apply orb_false_iff in P2.
                 --- exact P3.
                 --- discriminate.
              ** exists b, tl. repeat split; try assumption; try apply A.
                 intro g. rewrite (af_flags _ _ _ A), get_raise. cbn [flags_of flat_map app existsb].
                 rewrite (flag_eqb_sym f g), orb_assoc. reflexivity.
           ++ right. split; [|assumption]. intro Q. apply P. destruct Q as (P1 & P2 & P3 & P4).
              cbn [flags_of flat_map app] in *. inversion P1; subst. repeat split; try assumption.
              ** intros g I. rewrite get_raise, (P2 g (or_intror I)). cbn [orb].
                 destruct (flag_eqb f g) eqn:Eg; [|reflexivity]. apply flag_eqb_eq in Eg. subst g. contradiction.
              ** discriminate.
    + (* file *)
      cbn [app]. rewrite handle_file by assumption.
      destruct (IH ce (set_filename b0 s)) as [(P & b & tl & A & E & T)|(P & E)].
      * left. split.
        -- destruct P as (P1 & P2 & P3 & P4). repeat split; try assumption.
        -- exists b, tl. repeat split; try assumption.
           ++ intro g. rewrite (af_flags _ _ _ A), get_set_filename. reflexivity.
           ++ rewrite (af_file _ _ _ A). cbn [files_of flat_map app set_filename bd_filename].
              rewrite last_cons_some. reflexivity.
           ++ rewrite (af_out _ _ _ A). reflexivity.
           ++ rewrite (af_extra _ _ _ A). reflexivity.
      * right. split; [|assumption]. intro Q. apply P. destruct Q as (P1 & P2 & P3 & P4).
        repeat split; try assumption.
    + (* out *)
      cbn [app]. rewrite handle_out. destruct (bd_out_file b0) as [o|] eqn:Eo.
      * right. split; [|reflexivity]. intros (_ & _ & P3 & _). rewrite Eo in P3. cbn in P3. lia.
      * destruct (IH ce (set_out_file b0 s)) as [(P & b & tl & A & E & T)|(P & E)].
        -- left. split.
           ++ destruct P as (P1 & P2 & P3 & P4). repeat split; try assumption.
              rewrite Eo. cbn [outs_of flat_map app List.length set_out_file bd_out_file] in *. 
                 change (flat_map _ its) with (outs_of its). lia.
           ++ exists b, tl. repeat split; try assumption.
              ** intro g. rewrite (af_flags _ _ _ A), get_set_out. reflexivity.
              ** rewrite (af_file _ _ _ A). reflexivity.
              ** rewrite (af_out _ _ _ A). destruct P as (_ & _ & P3 & _).
                 cbn [set_out_file bd_out_file] in *. destruct (outs_of its) eqn:Eot; [|cbn in P3; lia].
                 cbn [outs_of flat_map app]. reflexivity.
              ** rewrite (af_extra _ _ _ A). reflexivity.
        -- right. split; [|assumption]. intro Q. apply P. destruct Q as (P1 & P2 & P3 & P4).
           repeat split; try assumption.
           rewrite Eo in P3. cbn [outs_of flat_map app List.length set_out_file bd_out_file] in *.
              change (flat_map _ its) with (outs_of its) in P3. lia.
Qed.

Lemma valid_iff : forall b, build_data_valid b = true <->
  forall f g, clash f g -> get_flag b f && get_flag b g = false.
Proof.
  intro b. split.
  - intros H f g C. destruct b as [fn o e q cb asm d pp co w o1 o2 o3 nv col].
    destruct C; cbn in *;
    destruct q, cb, asm, pp, co, w, o1, o2, o3, nv; cbn in *; congruence.
  - intro H.
    pose proof (H _ _ cl_o12) as H1. pose proof (H _ _ cl_o13) as H2. pose proof (H _ _ cl_o23) as H3.
    pose proof (H _ _ cl_cb) as H4. pose proof (H _ _ cl_q) as H5. pose proof (H _ _ cl_s) as H6.
    pose proof (H _ _ cl_ES) as H7. pose proof (H _ _ cl_Ec) as H8. pose proof (H _ _ cl_Sc) as H9.
    clear H. destruct b as [fn o e q cb asm d pp co w o1 o2 o3 nv col]. cbn in *.
    destruct q, cb, asm, pp, co, w, o1, o2, o3, nv; cbn in *; congruence.
Qed.

Lemma env_flags : forall color f, get_flag (handle_env color) f = true <->
  f = FColor /\ exists t, color = Some (chr "1" :: t).
Proof.
  intros color f. split.
  - destruct f; cbn; try discriminate. destruct color as [[|c t]|]; cbn; try discriminate.
    unfold at_; cbn [nth]. intro H. apply N.eqb_eq in H. subst c. split; [reflexivity|]. now exists t.
  - intros (-> & t & ->). reflexivity.
Qed.

Lemma passable_env : forall color its,
  passable (is_set color) (handle_env color) its <->
  NoDup (flags_of its) /\ (List.length (outs_of its) <= 1)%nat /\
  (is_set color = true -> ~ In FColor (flags_of its)).
Proof.
  intros color its. unfold passable. split.
  - intros (P1 & P2 & P3 & P4). auto.
  - intros (P1 & P3 & P4). repeat split; auto. intros f I.
    destruct (get_flag (handle_env color) f) eqn:G; [|reflexivity].
    apply env_flags in G as (-> & t & ->). exfalso. now apply P4.
Qed.

Lemma handle_extra : forall ce b e es, Forall nz (e :: es) ->
  N.of_nat (List.length (joined (e :: es))) < 2 ^ 63 ->
  handle_args ce b (u "--" :: e :: es) = Go (set_extra_args b (joined (e :: es))).
Proof.
  intros ce b e es Z L. pose proof (squash_ok (e :: es) ltac:(discriminate) Z L) as E.
  cbn -[squash_argv joined set_extra_args]. rewrite E. reflexivity.
Qed.

Lemma asks_after : forall color its b, after (handle_env color) its b ->
  asks_for color its [] b.
Proof.
  intros color its b A. repeat split.
  - intro H. rewrite (af_flags _ _ _ A) in H. apply orb_true_iff in H as [H|H].
    + right. now apply env_flags.
    + left. now apply existsb_flag.
  - intro H. rewrite (af_flags _ _ _ A). apply orb_true_iff.
    destruct H as [H|H]; [right; now apply existsb_flag|left; now apply env_flags].
  - rewrite (af_file _ _ _ A). reflexivity.
  - rewrite (af_out _ _ _ A). destruct (outs_of its); reflexivity.
  - rewrite (af_extra _ _ _ A). reflexivity.
Qed.

Lemma asks_extra : forall color its b e es, asks_for color its [] b ->
  asks_for color its (e :: es) (set_extra_args b (joined (e :: es))).
Proof.
  intros color its b e es (H1 & H2 & H3 & H4). repeat split; try assumption; apply H1.
Qed.

(** Settings after all arguments, or the exit. *)
Lemma handle_all : forall color its ex args, command its ex args ->
  Forall nz ex -> N.of_nat (List.length (joined ex)) < 2 ^ 63 ->
  (passable (is_set color) (handle_env color) its /\
   exists b, handle_args (is_set color) (handle_env color) args = Go b /\ asks_for color its ex b) \/
  (~ passable (is_set color) (handle_env color) its /\
   handle_args (is_set color) (handle_env color) args = Exit 1).
Proof.
  intros color its ex args C Z L.
  destruct (run_items its ex args C (is_set color) (handle_env color))
    as [(P & b & tl & A & E & T)|(P & E)]; [left|right; auto].
  split; [assumption|]. apply asks_after in A.
  destruct ex as [|e es]; subst tl.
  - exists b. split; [assumption|assumption].
  - exists (set_extra_args b (joined (e :: es))). rewrite E, handle_extra by assumption.
    split; [reflexivity|]. now apply asks_extra.
Qed.

Lemma clash_not_color : forall f g, clash f g -> f <> FColor /\ g <> FColor.
Proof. intros f g []; split; discriminate. Qed.

Lemma valid_asks : forall color its ex b, asks_for color its ex b ->
  (build_data_valid b = true <->
   forall f g, clash f g -> ~ (In f (flags_of its) /\ In g (flags_of its))).
Proof.
  intros color its ex b (H & _). rewrite valid_iff. split.
  - intros V f g C (If & Ig). specialize (V f g C).
    rewrite (proj2 (H f) (or_introl If)), (proj2 (H g) (or_introl Ig)) in V. discriminate.
  - intros N f g C. destruct (clash_not_color f g C) as (Nf & Ng).
    destruct (get_flag b f) eqn:Ef; [|reflexivity]. destruct (get_flag b g) eqn:Eg; [|reflexivity].
    exfalso. apply (N f g C). apply H in Ef. apply H in Eg. split.
    + destruct Ef as [|(? & _)]; [assumption|congruence].
    + destruct Eg as [|(? & _)]; [assumption|congruence].
Qed.

Lemma cli_ok : forall color its ex args, command its ex args -> args <> [] ->
  Forall nz ex -> N.of_nat (List.length (joined ex)) < 2 ^ 63 ->
  (acceptable (is_set color) its /\ exists b, cli_main color args = Go b /\ asks_for color its ex b) \/
  (~ acceptable (is_set color) its /\ cli_main color args = Exit 1).
Proof.
  intros color its ex args C Ne Z L.
  assert (M : cli_main color args =
    match handle_args (is_set color) (handle_env color) args with
      | Exit c => Exit c
      | Crash => Crash
      | Go b =>
          if negb (build_data_valid b) then Exit 1
          else match bd_filename b with
               | None => Exit 1
               | Some f => match strrstr f (u ".sk") with None => Exit 1 | Some _ => Go b end
               end
      end) by (destruct args; [congruence|reflexivity]).
  rewrite M. clear M.
  destruct (handle_all color its ex args C Z L) as [(P & b & E & A)|(P & E)]; rewrite E.
  - apply passable_env in P as (P1 & P2 & P3).
    pose proof (valid_asks _ _ _ _ A) as V.
    destruct (build_data_valid b) eqn:Ev; cbn [negb].
    + pose proof A as (_ & Af & _). rewrite Af.
      destruct (last (map Some (files_of its)) None) as [f|] eqn:El.
      * destruct (strrstr f (u ".sk")) as [i|] eqn:Es.
        -- left. split.
           ++ repeat split; auto; [apply V; reflexivity|]. exists f. split; [assumption|].
              apply strrstr_some in Es as ((p & r & Ep & _) & _). now exists p, r.
           ++ exists b. auto.
        -- right. split; [|reflexivity]. intros (_ & _ & _ & _ & f' & Ef & p & r & Ep).
           apply strrstr_none in Es. apply Es. exists p, r. congruence.
      * right. split; [|reflexivity]. intros (_ & _ & _ & _ & f' & Ef & _). congruence.
    + right. split; [|reflexivity]. intros (_ & _ & _ & Cl & _). 
      assert (false = true) by (apply V; exact Cl). discriminate.
  - right. split; [|reflexivity]. intros (A1 & A2 & A3 & A4 & A5). apply P. apply passable_env. auto.
Qed.

(** ** Every accepted argument list is a command line of the manual. *)
Lemma text2 : forall a c1, nz a -> c1 <> 0 -> at_ a 0 = chr "-" -> at_ a 1 = c1 -> at_ a 2 = 0 ->
  a = [chr "-"; c1].
Proof.
  intros a c1 Z Nc H0 H1 H2. destruct a as [|x [|y [|z r]]]; cbn in *; subst; try discriminate; try congruence.
  exfalso. inversion Z as [|? ? _ Z2]; inversion Z2 as [|? ? _ Z3]; inversion Z3; congruence.
Qed.

Lemma text3 : forall a c1 c2, c2 <> 0 -> at_ a 0 = chr "-" -> at_ a 1 = c1 -> at_ a 2 = c2 ->
  a = [chr "-"; c1; c2] ++ skipn 3 a.
Proof.
  intros a c1 c2 Nc H0 H1 H2. destruct a as [|x [|y [|z r]]]; cbn in *; subst; try discriminate; congruence.
Qed.

Lemma text_dd : forall a, nz a -> at_ a 0 = chr "-" -> at_ a 1 = chr "-" -> a = u "--" ++ skipn 2 a.
Proof.
  intros a Z H0 H1. destruct a as [|x [|y r]]; cbn in *; subst; try discriminate. reflexivity.
Qed.

Lemma long_inv : forall ce b a b', parse_long_option ce b a = inl b' ->
  exists f, spelled f (u "--" ++ a).
Proof.
  intros ce b a b'. unfold parse_long_option.
  destruct (text_eqb a (u "version")); [discriminate|].
  destruct (text_eqb a (u "help")); [discriminate|].
  destruct (text_eqb a (u "c-backend")) eqn:E; [apply text_eqb_eq in E; subst a; intros _; exists FCBackend; constructor|clear E].
  destruct (text_eqb a (u "werror")) eqn:E; [apply text_eqb_eq in E; subst a; intros _; exists FWerror; constructor|clear E].
  destruct (text_eqb a (u "llvm-no-verify")) eqn:E; [apply text_eqb_eq in E; subst a; intros _; exists FNoVerify; constructor|clear E].
  destruct (text_eqb a (u "color")) eqn:E; [apply text_eqb_eq in E; subst a; intros _; exists FColor; constructor|discriminate].
Qed.

Lemma handle_inv : forall n ce b args b', (List.length args <= n)%nat -> Forall nz args ->
  handle_args ce b args = Go b' -> exists its ex, command its ex args.
Proof.
  induction n as [|n IH]; intros ce b args b' Ln Z H.
  { destruct args; [|cbn in Ln; lia]. exists [], []. constructor. }
  destruct args as [|a rest]; [exists [], []; constructor|].
  cbn [List.length] in Ln. inversion Z as [|? ? Za Zr]; subst.
  cbn [handle_args] in H.
  assert (K : forall f, spelled f a -> forall b1, handle_args ce b1 rest = Go b' ->
    exists its ex, command its ex (a :: rest)).
  { intros f Sp b1 H1. destruct (IH ce b1 rest b' ltac:(lia) Zr H1) as (its & ex & C).
    exists (IFlag f :: its), ex. change (a :: rest) with ([a] ++ rest).
    constructor; [now constructor|assumption]. }
  assert (K2 : forall f r, match set_bool_flag b f with
      | inl b'' => handle_args ce b'' rest | inr code => Exit code end = Go b' -> r = true ->
      exists b1, handle_args ce b1 rest = Go b').
  { intros f r H1 _. destruct (set_bool_flag b f); [eauto|discriminate]. }
  destruct (at_ a 0 =? c_dash) eqn:E0; cbn [negb] in H.
  2:{ destruct (IH ce _ rest b' ltac:(lia) Zr H) as (its & ex & C).
      exists (IFile a :: its), ex. change (a :: rest) with ([a] ++ rest).
      constructor; [|assumption]. constructor. apply N.eqb_neq in E0.
      destruct a; [discriminate|exact E0]. }
  apply N.eqb_eq in E0.
  destruct (negb (at_ a 1 =? chr "O") &&
     (negb (at_ a 1 =? 0) && negb (at_ a 1 =? c_dash) && negb (at_ a 2 =? 0))) eqn:Es; [discriminate|].
  destruct (N.eqb_spec (at_ a 1) (chr "h")) as [|_]; [discriminate|].
  destruct (N.eqb_spec (at_ a 1) (chr "v")) as [|_]; [discriminate|].
  assert (Short : forall c, at_ a 1 = c -> c <> chr "O" -> c <> 0 -> c <> c_dash -> a = [chr "-"; c]).
  { intros c Ec N1 N2 N3. apply text2; try assumption. rewrite Ec in Es.
    apply N.eqb_neq in N1, N2, N3. rewrite N1, N2, N3 in Es. cbn in Es.
    apply negb_false_iff, N.eqb_eq in Es. assumption. }
  destruct (N.eqb_spec (at_ a 1) (chr "c")) as [E|_].
  { destruct (K2 _ true H eq_refl) as (b1 & H1). apply (K FCompileOnly) with b1; [|assumption].
    rewrite (Short _ E) by discriminate. constructor. }
  destruct (N.eqb_spec (at_ a 1) (chr "S")) as [E|_].
  { destruct (K2 _ true H eq_refl) as (b1 & H1). apply (K FAsm) with b1; [|assumption].
    rewrite (Short _ E) by discriminate. constructor. }
  destruct (N.eqb_spec (at_ a 1) (chr "E")) as [E|_].
  { destruct (K2 _ true H eq_refl) as (b1 & H1). apply (K FPreprocess) with b1; [|assumption].
    rewrite (Short _ E) by discriminate. constructor. }
  destruct (N.eqb_spec (at_ a 1) (chr "g")) as [E|_].
  { destruct (K2 _ true H eq_refl) as (b1 & H1). apply (K FDebug) with b1; [|assumption].
    rewrite (Short _ E) by discriminate. constructor. }
  destruct (N.eqb_spec (at_ a 1) (chr "q")) as [E|_].
  { destruct (K2 _ true H eq_refl) as (b1 & H1). apply (K FQuiet) with b1; [|assumption].
    rewrite (Short _ E) by discriminate. constructor. }
  destruct (N.eqb_spec (at_ a 1) (chr "O")) as [E|_].
  { destruct (N.eqb_spec (at_ a 2) (chr "1")) as [E2|_].
    { destruct (K2 _ true H eq_refl) as (b1 & H1). apply (K FO1) with b1; [|assumption].
      rewrite (text3 a (chr "O") (chr "1") ltac:(discriminate) E0 E E2). apply sp_O1. }
    destruct (N.eqb_spec (at_ a 2) (chr "2")) as [E2|_].
    { destruct (K2 _ true H eq_refl) as (b1 & H1). apply (K FO2) with b1; [|assumption].
      rewrite (text3 a (chr "O") (chr "2") ltac:(discriminate) E0 E E2). apply sp_O2. }
    destruct (N.eqb_spec (at_ a 2) (chr "3")) as [E2|_].
    { destruct (K2 _ true H eq_refl) as (b1 & H1). apply (K FO3) with b1; [|assumption].
      rewrite (text3 a (chr "O") (chr "3") ltac:(discriminate) E0 E E2). apply sp_O3. }
    discriminate. }
  destruct (N.eqb_spec (at_ a 1) (chr "o")) as [E|_].
  { destruct (bd_out_file b); [discriminate|]. destruct rest as [|o rest']; [discriminate|].
    inversion Zr as [|? ? Zo Zr']; subst. cbn [List.length] in Ln.
    destruct (IH ce _ rest' b' ltac:(lia) Zr' H) as (its & ex & C).
    exists (IOut o :: its), ex. rewrite (Short _ E) by discriminate.
    change ([chr "-"; chr "o"] :: o :: rest') with ([u "-o"; o] ++ rest').
    constructor; [constructor|assumption]. }
  destruct (N.eqb_spec (at_ a 1) c_dash) as [E|_]; [|discriminate].
  destruct (N.eqb_spec (at_ a 2) 0) as [E2|_]; cbn [negb] in H.
  - destruct rest as [|e es]; [discriminate|].
    rewrite (text2 a (chr "-") Za ltac:(discriminate) E0 E E2).
    exists [], (e :: es). constructor.
  - destruct (parse_long_option ce b (skipn 2 a)) as [b1|] eqn:El; [|discriminate].
    apply long_inv in El as (f & Sp). apply (K f) with b1; [|assumption].
    rewrite (text_dd a Za E0 E). assumption.
Qed.

Lemma cli_inv : forall color args b, Forall nz args -> cli_main color args = Go b ->
  exists its ex, command its ex args.
Proof.
  intros color args b Z H. destruct args as [|a r]; [discriminate|].
  unfold cli_main in H.
  destruct (handle_args _ _ (a :: r)) as [c|b1|] eqn:E; try discriminate.
  eapply handle_inv; [apply le_n|assumption|exact E].
Qed.

(** ** Exit code 0 without compiling means help or version was asked for. *)
Lemma set_bool_exit : forall b f c, set_bool_flag b f = inr c -> c = 1.
Proof. intros b f c. unfold set_bool_flag. destruct (get_flag b f); congruence. Qed.

Lemma handle_exit0 : forall n ce b args, (List.length args <= n)%nat -> Forall nz args ->
  handle_args ce b args = Exit 0 -> exists a, In a args /\ help_word a.
Proof.
  induction n as [|n IH]; intros ce b args Ln Z H.
  { destruct args; [discriminate|cbn in Ln; lia]. }
  destruct args as [|a rest]; [discriminate|].
  cbn [List.length] in Ln. inversion Z as [|? ? Za Zr]; subst.
  cbn [handle_args] in H.
  assert (K : forall b1 rest', (List.length rest' <= n)%nat -> Forall nz rest' -> incl rest' rest ->
    handle_args ce b1 rest' = Exit 0 -> exists a', In a' (a :: rest) /\ help_word a').
  { intros b1 rest' L Z' I H1. destruct (IH ce b1 rest' L Z' H1) as (a' & I' & Hw).
    exists a'. split; [right; now apply I|assumption]. }
  assert (K2 : forall f, match set_bool_flag b f with
      | inl b'' => handle_args ce b'' rest | inr code => Exit code end = Exit 0 ->
      exists a', In a' (a :: rest) /\ help_word a').
  { intros f H1. destruct (set_bool_flag b f) as [b1|c] eqn:E.
    - apply (K b1 rest); [lia|assumption|apply incl_refl|assumption].
    - apply set_bool_exit in E. subst c. discriminate. }
  destruct (at_ a 0 =? c_dash) eqn:E0; cbn [negb] in H.
  2:{ apply (K _ rest) in H; [assumption|lia|assumption|apply incl_refl]. }
  apply N.eqb_eq in E0.
  destruct (negb (at_ a 1 =? chr "O") &&
     (negb (at_ a 1 =? 0) && negb (at_ a 1 =? c_dash) && negb (at_ a 2 =? 0))) eqn:Es; [discriminate|].
  assert (Short : forall c, at_ a 1 = c -> c <> chr "O" -> c <> 0 -> c <> c_dash -> a = [chr "-"; c]).
  { intros c Ec N1 N2 N3. apply text2; try assumption. rewrite Ec in Es.
    apply N.eqb_neq in N1, N2, N3. rewrite N1, N2, N3 in Es. cbn in Es.
    apply negb_false_iff, N.eqb_eq in Es. assumption. }
  destruct (N.eqb_spec (at_ a 1) (chr "h")) as [E|_].
  { exists a. split; [now left|]. left. apply (Short _ E); discriminate. }
  destruct (N.eqb_spec (at_ a 1) (chr "v")) as [E|_].
  { exists a. split; [now left|]. right; left. apply (Short _ E); discriminate. }
  destruct (N.eqb_spec (at_ a 1) (chr "c")); [now apply K2 in H|].
  destruct (N.eqb_spec (at_ a 1) (chr "S")); [now apply K2 in H|].
  destruct (N.eqb_spec (at_ a 1) (chr "E")); [now apply K2 in H|].
  destruct (N.eqb_spec (at_ a 1) (chr "g")); [now apply K2 in H|].
  destruct (N.eqb_spec (at_ a 1) (chr "q")); [now apply K2 in H|].
  destruct (N.eqb_spec (at_ a 1) (chr "O")).
  { destruct (at_ a 2 =? chr "1"); [now apply K2 in H|].
    destruct (at_ a 2 =? chr "2"); [now apply K2 in H|].
    destruct (at_ a 2 =? chr "3"); [now apply K2 in H|discriminate]. }
  destruct (N.eqb_spec (at_ a 1) (chr "o")).
  { destruct (bd_out_file b); [discriminate|]. destruct rest as [|o rest']; [discriminate|].
    cbn [List.length] in Ln. inversion Zr; subst.
    apply (K _ rest') in H; [assumption|lia|assumption|now apply incl_tl, incl_refl]. }
  destruct (N.eqb_spec (at_ a 1) c_dash) as [E|_]; [|discriminate].
  destruct (N.eqb_spec (at_ a 2) 0) as [E2|_]; cbn [negb] in H.
  - destruct rest as [|e es]; [discriminate|]. destruct (squash_argv (e :: es)); discriminate.
  - rewrite (text_dd a Za E0 E).
    unfold parse_long_option in H.
    destruct (text_eqb (skipn 2 a) (u "version")) eqn:Ev.
    { apply text_eqb_eq in Ev. rewrite Ev. exists (u "--version"). split; [now left|]. unfold help_word. auto. }
    destruct (text_eqb (skipn 2 a) (u "help")) eqn:Eh.
    { apply text_eqb_eq in Eh. rewrite Eh. exists (u "--help"). split; [now left|]. unfold help_word. auto. }
    rewrite <- (text_dd a Za E0 E).
    destruct (text_eqb (skipn 2 a) (u "c-backend")); [now apply K2 in H|].
    destruct (text_eqb (skipn 2 a) (u "werror")); [now apply K2 in H|].
    destruct (text_eqb (skipn 2 a) (u "llvm-no-verify")); [now apply K2 in H|].
    destruct (text_eqb (skipn 2 a) (u "color")); [|discriminate].
    destruct ce; [discriminate|]. now apply K2 in H.
Qed.

Lemma cli_exit0 : forall color args, Forall nz args -> cli_main color args = Exit 0 ->
  args = [] \/ exists a, In a args /\ help_word a.
Proof.
  intros color args Z H. destruct args as [|a r]; [now left|]. right.
  unfold cli_main in H. destruct (handle_args _ _ (a :: r)) as [c|b1|] eqn:E; try discriminate.
  - inversion H; subst c. eapply handle_exit0; [apply le_n|assumption|exact E].
  - destruct (negb (build_data_valid b1)); [discriminate|]. destruct (bd_filename b1); [|discriminate].
    destruct (strrstr t (u ".sk")); discriminate.
Qed.

(** ** Order *)
From Coq Require Import Permutation.

Lemma flags_perm : forall a b, Permutation a b -> Permutation (flags_of a) (flags_of b).
Proof. intros. unfold flags_of. now apply Permutation_flat_map. Qed.

Lemma cli_order : forall color its1 its2 ex args1 args2 b,
  command its1 ex args1 -> command its2 ex args2 ->
  Permutation its1 its2 -> (List.length (files_of its1) <= 1)%nat ->
  Forall nz ex -> N.of_nat (List.length (joined ex)) < 2 ^ 63 ->
  cli_main color args1 = Go b -> cli_main color args2 = Go b.
Proof.
  intros color its1 its2 ex args1 args2 b C1 C2 P Lf Z L H.
  assert (N1 : args1 <> []) by (intros ->; discriminate).
  destruct (cli_ok color its1 ex args1 C1 N1 Z L) as [(A & b1 & E1 & Q1)|(A & E1)]; [|congruence].
  rewrite H in E1. inversion E1; subst b1. clear E1.
  assert (Fe : files_of its1 = files_of its2).
  { assert (PF : Permutation (files_of its1) (files_of its2)) by (now apply Permutation_flat_map).
    destruct (files_of its1) as [|x [|y l]]; [| |cbn in Lf; lia].
    - apply Permutation_nil in PF. congruence.
    - apply Permutation_length_1_inv in PF. congruence. }
  assert (Oe : outs_of its1 = outs_of its2).
  { assert (PF : Permutation (outs_of its1) (outs_of its2)) by (now apply Permutation_flat_map).
    destruct A as (_ & Lo & _). destruct (outs_of its1) as [|x [|y l]]; [| |cbn in Lo; lia].
    - apply Permutation_nil in PF. congruence.
    - apply Permutation_length_1_inv in PF. congruence. }
  pose proof (flags_perm its1 its2 P) as PF.
  assert (A2 : acceptable (is_set color) its2).
  { destruct A as (A1 & A2 & A3 & A4 & A5). repeat split.
    - eapply Permutation_NoDup; eassumption.
    - congruence.
    - intros E I. apply (A3 E). eapply Permutation_in; [apply Permutation_sym|]; eassumption.
    - intros f g Cl (I1 & I2). apply (A4 f g Cl).
      split; (eapply Permutation_in; [apply Permutation_sym|]; eassumption).
    - rewrite <- Fe. exact A5. }
  assert (N2 : args2 <> []).
  { intros ->. inversion C2 as [E3 E4| |i a r e t W C E3 E4 E5]; subst.
    - destruct A as (_ & _ & _ & _ & f & Ef & _). rewrite Fe in Ef. discriminate.
    - inversion W; subst; discriminate. }
  destruct (cli_ok color its2 ex args2 C2 N2 Z L) as [(_ & b2 & E2 & Q2)|(N & _)]; [|contradiction].
  rewrite E2. f_equal.
  destruct Q1 as (F1 & G1 & H1 & I1), Q2 as (F2 & G2 & H2 & I2).
  assert (Fl : forall f, get_flag b f = get_flag b2 f).
  { intro f. apply eq_true_iff_eq. rewrite F1, F2. split; intros [X|X]; auto; left.
    - eapply Permutation_in; eassumption.
    - eapply Permutation_in; [apply Permutation_sym|]; eassumption. }
  rewrite Fe in G1. rewrite Oe in H1.
  destruct b as [fn o e q cb asm d pp co w o1 o2 o3 nv col], b2 as [fn' o' e' q' cb' asm' d' pp' co' w' o1' o2' o3' nv' col'].
  cbn in *. 
  pose proof (Fl FQuiet). pose proof (Fl FCBackend). pose proof (Fl FAsm). pose proof (Fl FDebug).
  pose proof (Fl FPreprocess). pose proof (Fl FCompileOnly). pose proof (Fl FWerror). pose proof (Fl FO1).
  pose proof (Fl FO2). pose proof (Fl FO3). pose proof (Fl FNoVerify). pose proof (Fl FColor).
  clear F1 F2 Fl C1 C2 A. cbn in *. subst. f_equal; congruence.
Qed.
