(** The types of generated C expressions. *)
From Coq Require Import List Arith NArith ZArith Bool Lia Ascii String.
From Verif Require Import Base Model_Token Model_Literal Model_Parse Spec_Parse Model_Sem Spec_Sem Spec_Sem2 Model_CGen Spec_C Spec_CGen Spec_CProg Spec_CBack Spec_Run
  Spec_LLVM Spec_CBehave Proof_Sem2 Spec_CCheck Spec_CReady Proof_CRun2 Proof_CRun3 Proof_Safe2.
Import ListNotations.
Open Scope list_scope.
Open Scope nat_scope.

(** * Floating constants *)
Lemma digits_all : forall d a r, forallb d a = true -> match r with c :: _ => d c = false | [] => True end -> digits_then d (a ++ r) = r.
Proof.
  intros d a r F E. induction a as [|c a IH]; cbn [app digits_then].
  - destruct r as [|c r]; [reflexivity|]. cbn [digits_then]. now rewrite E.
  - cbn [forallb] in F. apply andb_true_iff in F as (F1 & F2). rewrite F1. auto.
Qed.
Lemma hex_hex : forall c, hex_digit c = true -> hex c = true.
Proof. intros c E. unfold hex_digit in E. unfold hex, dec. apply orb_true_iff in E as [E|E]; [unfold is_digit in E|]; rewrite orb_true_iff, orb_true_iff; left; [left|right]; exact E. Qed.
Lemma dec_dec : forall d, d <> [] -> forallb is_digit d = true -> all_digits d = true.
Proof. intros [|c d] N1 F; [now destruct N1|]. exact F. Qed.
Lemma finite_floating : forall t, finite_hex t -> floating t = true.
Proof.
  intros t (h & f & s & d & E & HH & SS & ND & FD & FF). subst t. change (u "0x" ++ h :: f ++ chr "p" :: s :: d) with (48 :: 120 :: h :: (f ++ 112 :: s :: d))%N.
  cbn [floating]. rewrite (hex_hex _ HH). cbn [andb].
  assert (EX : exponent (112 :: s :: d)%N = true) by (destruct SS as [->| ->]; apply (dec_dec d ND FD)).
  destruct FF as [->|(g & -> & FG)].
  - cbn [app]. exact EX.
  - cbn [app]. change (digits_then hex (chr "." :: g ++ (112 :: s :: d)%N)) with (46 :: g ++ 112 :: s :: d)%N. cbn [floating].
    rewrite (digits_all hex g (112 :: s :: d)%N); [exact EX| |reflexivity]. clear -FG. induction g as [|c g IH]; [reflexivity|]. cbn [forallb] in *. apply andb_true_iff in FG as (A & B). rewrite (hex_hex _ A). auto.
Qed.

Lemma cty_eqb_refl : forall t, cty_eqb t t = true.
Proof. induction t; auto. Qed.
Lemma find_here_eq : forall f x y d, find_here ((y, d) :: f) x = if text_eqb y x then Some d else find_here f x.
Proof. reflexivity. Qed.

Section Kinds.
Variable H : host.
Variable strict : bool.
Variable env : cctx.
Variable s : sst.
Variable l : list tnode.
Variable hs : list helper.
Local Notation ys := (ce_syms env).
Local Notation D := (sig s).
Local Notation isvar := (isvar env).
Local Notation isfun := (isfun env).
Local Notation same := (Spec_CGen.same env).
Local Notation same_all := (Spec_CGen.same_all env).
Local Notation fine_expr := (fine_expr H D).
Local Notation expr_kind := (expr_kind strict).
Local Notation named_string := (named_string env l).
Hypothesis ES : ys = s_syms s.

Lemma d_var : forall k t m, D k = Some (DVar t m) -> exists x v, is_var env k x v /\ v_type v = t /\ v_const v = negb m.
Proof.
  intros k t m E. unfold sig in E. rewrite <- ES in E. destruct (nth_error ys k) as [y|] eqn:N1; [|discriminate E].
  destruct (y_kind y) as [v|f|a|[a|]] eqn:K; try discriminate E.
  - injection E as <- <-. exists (y_name y), v. split; [exists y; auto|]. split; [reflexivity|]. now destruct (v_const v).
  - destruct (_ =? _)%N; discriminate E.
Qed.
Lemma d_fun : forall k ps r, D k = Some (DFun ps r) -> exists x f, is_fun env k x f /\ f_params f = ps /\ f_ret f = r.
Proof.
  intros k t m E. unfold sig in E. rewrite <- ES in E. destruct (nth_error ys k) as [y|] eqn:N1; [|discriminate E].
  destruct (y_kind y) as [v|f|a|[a|]] eqn:K; try discriminate E.
  destruct (_ =? _)%N; [|discriminate E]. injection E as <- <-. exists (y_name y), f. split; [exists y; auto|auto].
Qed.

(** * What names stand for *)

Definition arg_types (ts : list ty) : list (bool * cty) := map (fun t => (false, c_type t)) ts.
Definition var_in (ss : list cscope) (k : nat) : Prop := exists x v q, is_var env k x v /\ find_name ss x = Some (EObject q (c_type (v_type v))) /\
  (v_const v = false -> q = false) /\ (q = true -> exists n y, in_checked n l /\ tn_pay n = XDef k y /\ x_ty y = v_type v).
Definition fun_in (ss : list cscope) (k : nat) : Prop := exists x f st d, is_fun env k x f /\ find_name ss x = Some (EFunction st d (c_type (f_ret f)) (arg_types (f_params f))) /\
  forall t, In t (f_params f) -> t <> TVoid.
Record visible (ss : list cscope) (V : list nat) : Prop := {
  vs_vars : forall k, In k V -> isvar k -> var_in ss k;
  vs_funs : forall k, In k V -> isfun k -> fun_in ss k;
  vs_helpers : forall h, In h hs -> find_name ss (helper_name h) = Some (helper_entity h) }.

Lemma visible_less : forall ss V W, visible ss V -> incl W V -> visible ss W.
Proof. intros ss V W [A B C] L. constructor; auto. Qed.

(** * Expressions *)

(** What is asked of the parts of an expression. *)
Definition part_fits (p : texpr) : Prop :=
  match p with
  | XBin o a _ t _ => (forall h, helper_for o (x_ty a) t = Some h -> In h hs) /\ ~ (o = BMod /\ t = TFloat)
  | XCall _ _ args _ => strict = true -> forall x, In x args -> ~ named_string x
  | _ => True
  end.

Lemma assign_ok : forall q c t, t <> TVoid -> (c = true -> t = TStr \/ (exists r, t = TRef r) -> strict = false) ->
  assignable strict q (c_type t) (kind_of c (c_type t)) = true.
Proof.
  intros q c t N1 C. destruct t; try reflexivity; [|now destruct N1|]; cbn [c_type kind_of assignable]; rewrite cty_eqb_refl; cbn [andb];
    (destruct c; [rewrite C by eauto|]; cbn [negb]; now rewrite ?orb_true_r).
Qed.

Lemma args_kind : forall ss ps es, (fix args (ps : list (bool * cty)) (es : list cexp) {struct es} : bool :=
                match ps, es with
                | [], [] => true
                | (q, p) :: ps, e :: es => match expr_kind ss e with Some k => assignable strict q p k && args ps es | None => false end
                | _, _ => false
                end) ps es = true <-> Forall2 (fun p e => exists k, expr_kind ss e = Some k /\ assignable strict (fst p) (snd p) k = true) ps es.
Proof.
  intros ss ps es. revert ps. induction es as [|e es IH]; intros [|(q, p) ps].
  - split; auto.
  - split; [discriminate|intro F; inversion F].
  - split; [discriminate|intro F; inversion F].
  - destruct (expr_kind ss e) as [k|] eqn:E.
    + rewrite andb_true_iff, IH. split.
      * intros (A & B). constructor; [exists k; auto|exact B].
      * intro F. inversion F as [|? ? ? ? (k' & A & B) C]; subst. cbn [fst snd] in B. split; [congruence|exact C].
    + split; [discriminate|]. intro F. inversion F as [|? ? ? ? (k' & A & B) C]; subst. congruence.
Qed.
Lemma call_kind : forall ss f es st d t ps, find_name ss f = Some (EFunction st d t ps) ->
  Forall2 (fun p e => exists k, expr_kind ss e = Some k /\ assignable strict (fst p) (snd p) k = true) ps es ->
  expr_kind ss (CCall (CId f) es) = Some (kind_of false t).
Proof. intros ss f es st d t ps E F. cbn [Spec_CCheck.expr_kind]. rewrite E. apply args_kind in F. now rewrite F. Qed.

Definition quiet_kind (x : texpr) (q : bool) : Prop := q = true -> x_ty x = TStr \/ (exists r, x_ty x = TRef r) -> named_string x.
Definition kinded (ss : list cscope) (x : texpr) (ce : cexp) : Prop := exists q, expr_kind ss ce = Some (kind_of q (c_type (x_ty x))) /\ quiet_kind x q.

Lemma kinded_plain : forall ss x ce t, x_ty x = t -> (forall r, c_type t <> TyPtr r) -> expr_kind ss ce = Some (kind_of false (c_type t)) -> kinded ss x ce.
Proof. intros ss x ce t <- N1 E. exists false. split; [exact E|]. intro X. discriminate X. Qed.
Lemma kind_plain : forall q t, (forall r, c_type t <> TyPtr r) -> kind_of q (c_type t) = kind_of false (c_type t).
Proof. intros q t N1. destruct t; try reflexivity; now elim (N1 _ eq_refl). Qed.

Lemma kinds : forall ss V, visible ss V -> forall x, fine_expr V x -> (forall p, xpart p x -> part_fits p) ->
  forall ce, same x ce -> kinded ss x ce.
Proof.
  intros ss V VI x F. induction F as [t k ty c m I DK|t v ty OT|t k xs r I DK FX IH|x c F IH NU|x c F IH TB|o x y r c Fx IHx Fy IHy TE OT SI]; intros PF ce S0.
  - inversion S0 as [t0 k0 ty0 c0 y v NY KY| | | | | | | | | | | | | | |]; subst. destruct (d_var _ _ _ DK) as (n & v' & IV & VT & VC).
    assert (IV2 : is_var env k (y_name y) v) by (exists y; auto). destruct (is_var_one env _ _ _ _ _ IV IV2) as (-> & ->).
    destruct (vs_vars _ _ VI k I (ex_intro _ _ (ex_intro _ _ IV2))) as (n' & v' & q & IV3 & FN & Q1 & Q2). destruct (is_var_one env _ _ _ _ _ IV2 IV3) as (<- & <-).
    exists q. cbn [Spec_CCheck.expr_kind x_ty]. rewrite FN. split; [congruence|]. intros -> TT. destruct (Q2 eq_refl) as (n & y0 & C & P & T).
    exists t, k, ty, c, n, y0. split; [reflexivity|]. split; [|split; [exact C|]; split; [exact P|]; cbn [x_ty] in TT; rewrite T, VT; exact TT].
    unfold mutable. rewrite NY, KY. destruct (v_const v) eqn:E; [reflexivity|]. now specialize (Q1 eq_refl).
  - inversion S0; subst; try (apply kinded_plain with (1 := eq_refl); [intros ? X; discriminate X|]; cbn [Spec_CCheck.expr_kind unary_kind one_of existsb x_ty c_type kind_of];
      repeat match goal with E : c_constant _ = Some _ |- _ => rewrite E; clear E end; reflexivity).
    + apply kinded_plain with (1 := eq_refl); [intros ? X; discriminate X|]. cbn [Spec_CCheck.expr_kind]. rewrite finite_hex_none, finite_floating by assumption. reflexivity.
    + apply kinded_plain with (1 := eq_refl); [intros ? X; discriminate X|]. cbn [Spec_CCheck.expr_kind]. rewrite finite_hex_none, finite_floating by assumption. reflexivity.
    + exists false. split; [reflexivity|]. intro X. discriminate X.
  - inversion S0 as [| | | | | | | | | | | | | | |t0 k0 args ty y f es NY KY SA]; subst. destruct (d_fun _ _ _ DK) as (n & f' & IF & FP & FR).
    assert (IF2 : is_fun env k (y_name y) f) by (exists y; auto). destruct (is_fun_one env _ _ _ _ _ IF IF2) as (-> & ->).
    destruct (vs_funs _ _ VI k I (ex_intro _ _ (ex_intro _ _ IF2))) as (n' & f' & st & d & IF3 & FN & AZ). destruct (is_fun_one env _ _ _ _ _ IF2 IF3) as (<- & <-).
    exists false. split; [|intro X; discriminate X]. cbn [x_ty]. rewrite <- FR. refine (call_kind _ _ _ _ _ _ _ FN _). rewrite FP.
    pose proof (PF _ (xp_self _)) as PC. cbn [part_fits] in PC.
    assert (PA : forall a p, In a xs -> xpart p a -> part_fits p) by (intros a p IA XP; apply PF; now apply xp_arg with a).
    rewrite FP in AZ.
    clear - IH SA PC PA AZ. revert es SA. induction xs as [|a xs IX]; intros es SA; inversion SA as [|? ? e es0 SE SR]; subst; [constructor|].
    cbn [map arg_types]. constructor.
    + destruct (IH a (or_introl eq_refl)) with (ce := e) as (q & E & Q); [intros p; apply PA; now left|exact SE|].
      exists (kind_of q (c_type (x_ty a))). split; [exact E|]. cbn [fst snd]. apply assign_ok; [apply AZ; now left|]. intros EQ TT. subst q.
      destruct strict eqn:ST; [|reflexivity]. exfalso. apply (PC eq_refl a (or_introl eq_refl)). now apply Q.
    + apply IX; auto.
      * intros b IB. apply IH. now right.
      * intros t0 IT. apply AZ. now right.
      * intros ST b IB. apply PC; [exact ST|now right].
      * intros b p IB. apply PA. now right.
  - inversion S0 as [| | | | | | | | |o op x0 ty c0 e CU SX| | | | | |]; subst. inversion CU; subst.
    destruct IH with (ce := e) as (q & E & _); [intros p P; apply PF; now apply xp_un|exact SX|].
    exists false. split; [|intro X; discriminate X]. cbn [Spec_CCheck.expr_kind x_ty]. rewrite E. destruct NU as [->| ->]; reflexivity.
  - inversion S0 as [| | | | | | | | |o op x0 ty c0 e CU SX| | | | | |]; subst. inversion CU; subst.
    destruct IH with (ce := e) as (q & E & _); [intros p P; apply PF; now apply xp_un|exact SX|].
    exists false. split; [|intro X; discriminate X]. cbn [Spec_CCheck.expr_kind x_ty]. rewrite E, TB. reflexivity.
  - assert (IX : forall a, same x a -> kinded ss x a) by (intros a; apply IHx; intros p P; apply PF; now apply xp_left).
    assert (IY : forall b, same y b -> kinded ss y b) by (intros b; apply IHy; intros p P; apply PF; now apply xp_right).
    destruct (PF _ (xp_self _)) as (HL & NM). exists false. split; [|intro X; discriminate X]. cbn [x_ty].
    inversion S0 as [| | | | | | | | | |o0 op x0 y0 ty c0 a b CB NS SA SB|x0 y0 ty c0 a b TS SA SB|x0 y0 ty c0 a b TS SA SB|x0 y0 c0 a b SA SB|x0 y0 c0 a b SA SB|]; subst;
      destruct (IX a SA) as (qa & EA & QA); destruct (IY b SB) as (qb & EB & QB); rewrite TE in *.
    + cbn [Spec_CCheck.expr_kind]. rewrite EA, EB.
      inversion OT as [o1 t1 IO NU|o1 IO|o1 t1 IO NU|o1 t1 IO|o1 IO]; subst.
      * destruct NU as [NU|NU]; rewrite NU in *; inversion CB; subst; try reflexivity; cbn [In] in IO; try (exfalso; now apply NM); exfalso; intuition discriminate.
      * inversion CB; subst; try reflexivity; cbn [In] in IO; exfalso; intuition discriminate.
      * destruct NU as [NU|NU]; rewrite NU in *; inversion CB; subst; try reflexivity; cbn [In] in IO; exfalso; intuition discriminate.
      * assert (CO : comparing o) by (cbn [In] in IO; unfold comparing; intuition). specialize (SI CO).
        assert (NT : x_ty y <> TStr). { intro X. destruct (NS X) as (N1 & N2). destruct CO; congruence. }
        destruct CO as [->| ->]; inversion CB; subst; destruct SI as [X|[X|[X|[X|X]]]]; try contradiction; rewrite X; reflexivity.
      * inversion CB; subst; try reflexivity; cbn [In] in IO; exfalso; intuition discriminate.
    + rewrite TS in *. inversion OT as [o1 t1 IO NU|o1 IO|o1 t1 IO NU|o1 t1 IO|o1 IO]; subst; try (exfalso; cbn [In] in IO; intuition discriminate).
      apply (call_kind ss (u "_strcmp") [a; b] _ _ TyBool _ (vs_helpers _ _ VI HStrcmp (HL _ eq_refl))).
      repeat (apply Forall2_cons; [eexists; split; [eassumption|reflexivity]|]). constructor.
    + rewrite TS in *. inversion OT as [o1 t1 IO NU|o1 IO|o1 t1 IO NU|o1 t1 IO|o1 IO]; subst; try (exfalso; cbn [In] in IO; intuition discriminate).
      assert (X : expr_kind ss (call2 "_strcmp" a b) = Some KdInt).
      { apply (call_kind ss (u "_strcmp") [a; b] _ _ TyBool _ (vs_helpers _ _ VI HStrcmp (HL _ eq_refl))).
        repeat (apply Forall2_cons; [eexists; split; [eassumption|reflexivity]|]). constructor. }
      unfold call2 in *. change (match expr_kind ss (CCall (CId (u "_strcmp")) [a; b]) with Some k => unary_kind (u "!") k | None => None end = Some KdInt). rewrite X. reflexivity.
    + inversion OT as [o1 t1 IO NU|o1 IO|o1 t1 IO NU|o1 t1 IO|o1 IO]; subst; try (exfalso; cbn [In] in IO; intuition discriminate).
      assert (XT : x_ty y = TInt) by congruence. rewrite XT in *.
      apply (call_kind ss (u "_int_pow") [a; b] _ _ TyInt64 _ (vs_helpers _ _ VI HIntPow (HL _ eq_refl))).
      repeat (apply Forall2_cons; [eexists; split; [eassumption|reflexivity]|]). constructor.
    + inversion OT as [o1 t1 IO NU|o1 IO|o1 t1 IO NU|o1 t1 IO|o1 IO]; subst; try (exfalso; cbn [In] in IO; intuition discriminate).
      assert (XT : x_ty y = TFloat) by congruence. rewrite XT in *.
      apply (call_kind ss (u "_float_pow") [a; b] _ _ TyDouble _ (vs_helpers _ _ VI HFloatPow (HL _ eq_refl))).
      repeat (apply Forall2_cons; [eexists; split; [eassumption|reflexivity]|]). constructor.
Qed.
End Kinds.
