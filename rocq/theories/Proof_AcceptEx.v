(** A way to check that given programs keep the rules of Spec_Accept.v. *)
From Coq Require Import List Arith NArith ZArith Bool Lia Ascii String.
From Verif Require Import Base Model_Token Model_Utf8 Model_Classify Model_Literal Model_Parse Model_Sem.
From Verif Require Import Spec_Utf8 Spec_Classify Spec_Literal Spec_Parse Spec_Sem Spec_Sem2 Spec_Accept.
From Verif Require Import Proof_Classify Proof_Parse Proof_Parse5 Proof_Sem Proof_Sem2 Proof_SemEx.
Import ListNotations.
Open Scope list_scope.
Open Scope N_scope.

Definition decls_of (l : list (option decl)) : decls := fun k => match nth_error l k with Some d => d | None => None end.

Definition ty_dec : forall a b : ty, {a = b} + {a <> b}.
Proof. decide equality. Defined.

(** * Names *)

Definition word (src : text) (t : token) : text :=
  match t_begin t with Some b => firstn (N.to_nat (t_len t)) (skipn b src) | None => [] end.
Definition spelt (src : text) (t : token) : bool :=
  match t_begin t with Some _ => forallb (fun c => (c <? 128) && (0 <? c)) (word src t) | None => false end.
Lemma spelt_spells : forall src t, spelt src t = true -> spells src t (word src t).
Proof.
  intros src t H. apply spells_of. unfold spelt, spellb, word in *. destruct (t_begin t); [|discriminate].
  destruct (list_eq_dec N.eq_dec _ _); [exact H|congruence].
Qed.

Definition same (a b : text) : bool := if list_eq_dec N.eq_dec a b then true else false.
Lemma same_true : forall a b, same a b = true -> a = b.
Proof. intros a b. unfold same. now destruct (list_eq_dec N.eq_dec a b). Qed.
Lemma same_false : forall a b, same a b = false -> a <> b.
Proof. intros a b. unfold same. now destruct (list_eq_dec N.eq_dec a b). Qed.

Definition undotted (n : text) : bool := forallb (fun c => negb (c =? chr ".")) n.
Lemma undotted_true : forall n, undotted n = true -> ~ In (chr ".") n.
Proof. intros n H I. unfold undotted in H. rewrite forallb_forall in H. apply H in I. now rewrite N.eqb_refl in I. Qed.

Fixpoint look (e : env) (n : text) : option nat :=
  match e with [] => None | (m, k) :: r => if same n m then Some k else look r n end.
Lemma look_resolves : forall D n, ~ In (chr ".") n -> forall e k, look e n = Some k -> resolves D e n k.
Proof.
  intros D n ND e. induction e as [|(m, j) e IH]; intros k H; cbn in H; [discriminate|]. destruct (same n m) eqn:E.
  - apply same_true in E. subst m. inversion H; subst. now constructor.
  - apply same_false in E. constructor; auto.
Qed.
Fixpoint cut (n : text) : option (text * text) :=
  match n with
  | [] => None
  | c :: r => if c =? chr "." then Some ([], r) else match cut r with Some (a, b) => Some (c :: a, b) | None => None end
  end.
Lemma cut_some : forall n a b, cut n = Some (a, b) -> n = a ++ chr "." :: b /\ ~ In (chr ".") a.
Proof.
  induction n as [|c n IH]; intros a b H; cbn [cut] in H; [discriminate|]. destruct (N.eqb_spec c (chr ".")) as [->|NE].
  - inversion H; subst. split; [reflexivity|intros []].
  - destruct (cut n) as [(a' & b')|]; [|discriminate]. inversion H; subst. destruct (IH a' b eq_refl) as (-> & I). split; [reflexivity|].
    intros [X|X]; [congruence|contradiction].
Qed.
Fixpoint resolve (D : decls) (f : nat) (e : env) (n : text) : option nat :=
  match f with
  | O => None
  | S f => match cut n with
           | None => if undotted n then look e n else None
           | Some (a, b) => match look e a with
                            | Some j => match D j with Some (DSpace i) => resolve D f i b | _ => None end
                            | None => None
                            end
           end
  end.
Lemma resolve_resolves : forall D f e n k, resolve D f e n = Some k -> resolves D e n k.
Proof.
  intros D f. induction f as [|f IH]; intros e n k H; cbn [resolve] in H; [discriminate|]. destruct (cut n) as [(a & b)|] eqn:C.
  - destruct (cut_some _ _ _ C) as (-> & I). destruct (look e a) as [j|] eqn:L; [|discriminate]. destruct (D j) as [[| | |i]|] eqn:DJ; try discriminate.
    apply re_inside with j i; auto. now apply look_resolves.
  - destruct (undotted n) eqn:UD; [|discriminate]. now apply look_resolves; [apply undotted_true|].
Qed.

Definition newb (e : env) (x : text) : bool :=
  is_valid_identifier_str x && negb (last x 0 =? chr ":") && undotted x && match find_builtin_type x with None => true | _ => false end &&
  match look e x with None => true | _ => false end.
Lemma look_none : forall e n, look e n = None -> forall k, ~ In (n, k) e.
Proof.
  induction e as [|(m, j) e IH]; intros n H k I; [contradiction|]. cbn in H. destruct (same n m) eqn:E; [discriminate|]. apply same_false in E.
  destruct I as [I|I]; [inversion I; congruence|now apply (IH n H k)].
Qed.
Lemma name_of : forall x, is_valid_identifier_str x && negb (last x 0 =? chr ":") = true -> name x.
Proof.
  intros x H. apply andb_true_iff in H as (H & L). apply ident_ok in H as [H|(m & -> & _)]; [exact H|].
  rewrite last_last in L. vm_compute in L. discriminate.
Qed.
Lemma newb_new : forall e x, newb e x = true -> new_name e x.
Proof.
  intros e x H. unfold newb in H. apply andb_true_iff in H as (H & L). apply andb_true_iff in H as (H & B). apply andb_true_iff in H as (H & UD).
  split; [now apply name_of|]. split; [now apply undotted_true|]. split.
  - intros ty X. apply builtin_found in X. now rewrite X in B.
  - apply look_none. destruct (look e x); [discriminate|reflexivity].
Qed.

(** * Types *)

Definition like (t : token) : bool := is_identifier_like t.
Fixpoint typ (D : decls) (src : text) (e : env) (ts : list token) : option ty :=
  match ts with
  | [] => None
  | t :: r =>
      if like t then
        if spelt src t then
          match find_builtin_type (word src t) with
          | Some ty => Some ty
          | None => match resolve D 9 e (word src t) with
                    | Some k => match D k with Some (DType (Some ty)) => Some ty | _ => None end
                    | None => None
                    end
          end
        else None
      else match t_type t with T_OPER_REF => match typ D src e r with Some ty => Some (TRef ty) | None => None end | _ => None end
  end.
Lemma typ_type : forall D src e ts ty, typ D src e ts = Some ty -> type_at D src e ts ty.
Proof.
  intros D src e ts. induction ts as [|t r IH]; intros ty H; cbn [typ] in H; [discriminate|]. unfold like in H. destruct (is_identifier_like t) eqn:L.
  - apply ident_like_true in L. destruct (spelt src t) eqn:SP; [|discriminate]. apply spelt_spells in SP.
    destruct (find_builtin_type (word src t)) as [b|] eqn:B.
    + inversion H; subst. apply ta_builtin with (word src t); auto. now apply builtin_found.
    + destruct (resolve D 9 e (word src t)) as [k|] eqn:R; [|discriminate]. apply resolve_resolves in R.
      destruct (D k) as [[| |[o|]|]|] eqn:DK; try discriminate. inversion H; subst. now apply ta_alias with (word src t) k.
  - destruct (t_type t) eqn:T; try discriminate. destruct (typ D src e r) as [o|]; [|discriminate]. inversion H; subst. apply ta_ref; auto.
Qed.

Fixpoint untyped (D : decls) (src : text) (e : env) (ts : list token) : bool :=
  match ts with
  | [] => false
  | t :: r =>
      if like t then
        spelt src t && match resolve D 9 e (word src t) with
                       | Some k => match D k with Some (DVar _ _) | Some (DFun _ _) => true | _ => false end
                       | None => false
                       end
      else match t_type t with T_OPER_REF => untyped D src e r | _ => true end
  end.
Lemma untyped_none : forall D src e ts, untyped D src e ts = true -> no_type_at D src e ts.
Proof.
  intros D src e ts. induction ts as [|t r IH]; intros H; cbn [untyped] in H; [discriminate|]. unfold like in H. destruct (is_identifier_like t) eqn:L.
  - apply ident_like_true in L. apply andb_true_iff in H as (SP & H). apply spelt_spells in SP.
    destruct (resolve D 9 e (word src t)) as [k|] eqn:R; [|discriminate]. apply resolve_resolves in R.
    destruct (D k) as [[| | |]|] eqn:DK; try discriminate; [now apply nt_variable with (word src t) k t0 mut|now apply nt_function with (word src t) k params result].
  - assert (NL : ~ name_like (t_type t)) by (intro X; apply ident_like_true in X; congruence).
    destruct (t_type t) eqn:T; try (apply nt_other; rewrite T; [rewrite <- T in *; exact NL|discriminate]).
    apply nt_ref; auto.
Qed.

(** * Expressions *)

Definition numberb (t : ty) : bool := match t with TInt | TFloat => true | _ => false end.
Lemma numberb_true : forall t, numberb t = true -> is_number t.
Proof. intros [ | | | | | | ] H; try discriminate; [now left|now right]. Qed.
Definition oper (o : binop) (t : ty) : option ty :=
  match o with
  | BAdd | BSub | BMult | BDiv | BMod | BPow => if numberb t then Some t else None
  | BLshift | BRshift => match t with TInt => Some TInt | _ => None end
  | BLess | BGtr | BLessEq | BGtrEq => if numberb t then Some TBool else None
  | BIs | BIsnt => Some TBool
  | BAnd | BOr | BXor => match t with TBool => Some TBool | _ => None end
  end.
Lemma oper_type_of : forall o t r, oper o t = Some r -> oper_type o t r.
Proof.
  intros o t r H. destruct o; cbn in H;
    try (destruct (numberb t) eqn:E; [|discriminate]; apply numberb_true in E; inversion H; subst; (now constructor; [cbn; tauto|]));
    try (destruct t; inversion H; subst; constructor; cbn; tauto).
Qed.

Definition lit (w : world) (src : text) (t : token) : option (value * ty) :=
  match t_type t with
  | T_INT_CONST => match eval_integer src t with Ok (Val z) => Some (VInt z, TInt) | _ => None end
  | T_FLOAT_CONST => match eval_float src t with Ok f => Some (VFloat f, TFloat) | _ => None end
  | T_BOOL_CONST => Some (VBool (eval_bool t), TBool)
  | T_RUNE_CONST => match eval_rune (w_wide w) src t with Ok (Val c) => Some (VRune c, TRune) | _ => None end
  | T_STR_CONST => match const_str src t with Some (Ok (Val b)) => Some (VStr b, TStr) | _ => None end
  | _ => None
  end.
Lemma lit_value : forall w src t v ty, lit w src t = Some (v, ty) -> literal_value w src t v ty.
Proof.
  intros w src t v ty H. unfold lit in H. destruct (t_type t) eqn:T; try discriminate.
  - destruct (eval_integer src t) as [[z|]|] eqn:E; inversion H; subst. now constructor.
  - destruct (eval_float src t) as [f|] eqn:E; inversion H; subst. now constructor.
  - inversion H; subst. now constructor.
  - destruct (eval_rune (w_wide w) src t) as [[z|]|] eqn:E; inversion H; subst. now constructor.
  - destruct (const_str src t) as [[[z|]|]|] eqn:E; inversion H; subst. now constructor.
Qed.

Definition zero (y : texpr) : bool := match y with XConst _ (VInt 0) _ => true | _ => false end.
Definition divides (o : binop) : bool := match o with BDiv | BMod => true | _ => false end.
Fixpoint elab_of (D : decls) (w : world) (src : text) (e : env) (v : expr) {struct v} : option texpr :=
  match v with
  | EVar t =>
      if spelt src t then
        match resolve D 9 e (word src t) with
        | Some k => match D k with Some (DVar ty _) => Some (XVar t k ty false) | _ => None end
        | None => None
        end
      else None
  | EConst t => match lit w src t with Some (v, ty) => Some (XConst t v ty) | None => None end
  | ECall f args _ =>
      if spelt src f then
        match resolve D 9 e (word src f) with
        | Some k =>
            match D k with
            | Some (DFun ps r) =>
                match (fix go (l : list (list token * expr)) : option (list texpr) :=
                         match l with
                         | [] => Some []
                         | (_, a) :: l => match elab_of D w src e a, go l with Some x, Some xs => Some (x :: xs) | _, _ => None end
                         end) args with
                | Some xs => if list_eq_dec ty_dec (map x_ty xs) ps then Some (XCall f k xs r) else None
                | None => None
                end
            | _ => None
            end
        | None => None
        end
      else None
  | EUn UNeg (Some a) => match elab_of D w src e a with Some x => if numberb (x_ty x) then Some (XUn UNeg x (x_ty x) false) else None | None => None end
  | EUn UNot (Some a) => match elab_of D w src e a with Some x => match x_ty x with TBool => Some (XUn UNot x TBool false) | _ => None end | None => None end
  | EUn URef (Some (EVar t as a)) => match elab_of D w src e a with Some x => Some (XUn URef x (TRef (x_ty x)) false) | None => None end
  | EUn UDeref (Some (EVar t as a)) => match elab_of D w src e a with Some x => match x_ty x with TRef ty => Some (XUn UDeref x ty false) | _ => None end | None => None end
  | EBin o (Some a) b =>
      match elab_of D w src e a, elab_of D w src e b with
      | Some x, Some y =>
          if ty_dec (x_ty x) (x_ty y) then
            match oper o (x_ty y) with
            | Some r => if divides o && zero y then None else Some (XBin o x y r false)
            | None => None
            end
          else None
      | _, _ => None
      end
  | _ => None
  end.

Lemma elab_of_elab : forall D w src e v y, elab_of D w src e v = Some y -> elab D w src e v y.
Proof.
  intros D w src e v. induction v using expr_ind'; intros y H'; cbn [elab_of] in H'.
  - destruct (spelt src t) eqn:SP; [|discriminate]. destruct (resolve D 9 e (word src t)) as [k|] eqn:R; [|discriminate].
    destruct (D k) as [[ty m| | |]|] eqn:DK; try discriminate. inversion H'; subst. apply el_var with (word src t) m; auto; [now apply spelt_spells|now apply resolve_resolves in R].
  - destruct (lit w src t) as [(v & ty)|] eqn:L; [|discriminate]. inversion H'; subst. constructor. now apply lit_value.
  - destruct (spelt src name) eqn:SP; [|discriminate]. destruct (resolve D 9 e (word src name)) as [k|] eqn:R; [|discriminate].
    destruct (D k) as [[|ps r| |]|] eqn:DK; try discriminate.
    match type of H' with context [match ?g args with _ => _ end] => set (go := g) in H' end.
    destruct (go args) as [xs|] eqn:G; [|discriminate]. destruct (list_eq_dec ty_dec (map x_ty xs) ps) as [E|]; [|discriminate]. inversion H'; subst y.
    apply el_call with (word src name) ps; auto; [now apply spelt_spells|now apply resolve_resolves in R|].
    clear - H G. revert xs G. induction args as [|(p, a) args IH]; intros xs G; cbn in G.
    + inversion G; subst. constructor.
    + destruct (elab_of D w src e a) as [x|] eqn:EA; [|discriminate]. destruct (go args) as [xs'|] eqn:G'; [|discriminate]. inversion G; subst.
      inversion H as [|? ? H1 H2]; subst. cbn [map snd]. constructor; [now apply H1|now apply IH].
  - destruct o; discriminate.
  - destruct o.
    + destruct (elab_of D w src e v) as [x|] eqn:E; [|discriminate]. destruct (numberb (x_ty x)) eqn:NB; [|discriminate]. inversion H'; subst.
      constructor; [now apply IHv|now apply numberb_true].
    + destruct (elab_of D w src e v) as [x|] eqn:E; [|discriminate]. destruct (x_ty x) eqn:NB; try discriminate. inversion H'; subst.
      constructor; [now apply IHv|exact NB].
    + destruct v; try discriminate. destruct (elab_of D w src e (EVar t)) as [x|] eqn:E; [|discriminate]. inversion H'; subst. constructor. now apply IHv.
    + destruct v; try discriminate. destruct (elab_of D w src e (EVar t)) as [x|] eqn:E; [|discriminate]. destruct (x_ty x) eqn:NB; try discriminate.
      inversion H'; subst. constructor; [now apply IHv|exact NB].
  - discriminate.
  - destruct (elab_of D w src e v1) as [x|] eqn:E1; [|discriminate]. destruct (elab_of D w src e v2) as [z|] eqn:E2; [|discriminate].
    destruct (ty_dec (x_ty x) (x_ty z)) as [EQ|]; [|discriminate]. destruct (oper o (x_ty z)) as [r|] eqn:O; [|discriminate].
    destruct (divides o && zero z) eqn:DZ; [discriminate|]. inversion H'; subst. apply el_bin; auto; [now apply oper_type_of|].
    intros OO t0 ty ->. destruct OO as [-> | ->]; discriminate.
Qed.

Definition floatless (w : world) (src : text) (v : expr) : bool :=
  forallb (fun p => match p with
    | EConst t => match t_type t with T_FLOAT_CONST => match eval_float src t with Ok f => negb (w_range w f) | _ => true end | _ => true end
    | _ => true end) (parts v).
Lemma floatless_range : forall w src v, floatless w src v = true -> in_range w src v.
Proof.
  intros w src v H t f P T E. apply part_parts in P. unfold floatless in H. rewrite forallb_forall in H. apply H in P. rewrite T, E in P.
  now destruct (w_range w f).
Qed.

(** * Statements *)

Definition decl_dec : forall a b : option decl, {a = b} + {a <> b}.
Proof. decide equality. decide equality; try apply ty_dec; try apply bool_dec; try (apply list_eq_dec; apply ty_dec).
  - decide equality. apply ty_dec.
  - apply list_eq_dec. decide equality; [apply Nat.eq_dec|apply list_eq_dec; apply N.eq_dec].
Defined.
Definition is_decl (D : decls) (k : nat) (d : option decl) : bool := if decl_dec (D k) d then true else false.
Lemma is_decl_true : forall D k d, is_decl D k d = true -> D k = d.
Proof. intros D k d. unfold is_decl. now destruct (decl_dec (D k) d). Qed.

Definition quietb (l : list node) : bool :=
  forallb (fun m => match n_type m, n_child m with N_COMMENT, [] | N_UNREACHABLE, [] | N_NOOP, [] => true | _, _ => false end) l.
Lemma quietb_nothing : forall l, quietb l = true -> nothing_after l.
Proof.
  intros l H. unfold quietb in H. rewrite forallb_forall in H. apply Forall_forall. intros m I. apply H in I. unfold idle.
  destruct (n_type m); try discriminate; destruct (n_child m); try discriminate; tauto.
Qed.
Fixpoint ifb (b : list ntype) : bool := match b with N_IF :: _ => true | N_ELIF :: _ => true | N_COMMENT :: r => ifb r | _ => false end.
Lemma ifb_if : forall b, ifb b = true -> follows_if b.
Proof. induction b as [|[] b IH]; intro H; cbn in H; try discriminate; constructor; auto. Qed.

Fixpoint ends (l : list node) : bool :=
  match l with
  | [] => false
  | n :: r => match n_type n, n_pay n with
              | N_RETURN, PExpr _ => forallb (fun m => match n_type m with N_COMMENT | N_UNREACHABLE | N_NOOP => true | _ => false end) r
              | _, _ => ends r
              end
  end.
Lemma ends_value : forall l, ends l = true -> ends_with_value l.
Proof.
  induction l as [|n l IH]; intro H; [discriminate|]. cbn [ends] in H.
  assert (REC : ends l = true -> ends_with_value (n :: l)).
  { intro X. destruct (IH X) as (a & m & v & b & -> & R). exists (n :: a), m, v, b. auto. }
  destruct (n_type n) eqn:T; auto. destruct (n_pay n) eqn:P; auto. exists [], n, e, l. split; [reflexivity|]. split; [exact T|]. split; [exact P|].
  apply Forall_forall. intros m I. rewrite forallb_forall in H. apply H in I. unfold idle. destruct (n_type m); try discriminate; tauto.
Qed.

Definition vart (D : decls) (k : nat) : option ty := match D k with Some (DVar t _) => Some t | _ => None end.
Fixpoint parb (D : decls) (src : text) (e : env) (i : nat) (ps : list param) : option (list ty * env * nat) :=
  match ps with
  | [] => Some ([], e, i)
  | p :: ps =>
      match typ D src e (pm_type p) with
      | Some t =>
          let n := word src (pm_name p) in
          if spelt src (pm_name p) && newb e n && is_decl D i (Some (DVar t false)) then
            match parb D src ((n, i) :: e) (S i) ps with Some (ts, e', j) => Some (t :: ts, e', j) | None => None end
          else None
      | None => None
      end
  end.
Lemma parb_legal : forall D src ps e i ts e' j, parb D src e i ps = Some (ts, e', j) -> legal_params D src e ps ts e'.
Proof.
  intros D src ps. induction ps as [|p ps IH]; intros e i ts e' j H; cbn [parb] in H; [inversion H; subst; constructor|].
  destruct (typ D src e (pm_type p)) as [t|] eqn:T; [|discriminate]. cbv zeta in H.
  destruct (spelt src (pm_name p) && newb e (word src (pm_name p)) && is_decl D i (Some (DVar t false))) eqn:C; [|discriminate].
  apply andb_true_iff in C as (C & C3). apply andb_true_iff in C as (C1 & C2).
  destruct (parb D src ((word src (pm_name p), i) :: e) (S i) ps) as [((ts' & e1) & j1)|] eqn:R; [|discriminate]. inversion H; subst.
  apply lp_cons with (word src (pm_name p)) i; [now apply typ_type|now apply spelt_spells|now apply newb_new|now apply is_decl_true in C3|now apply IH in R].
Qed.

Definition one := place -> list ntype -> env -> nat -> node -> list node -> option (env * nat).
Definition blockb (f : one) : place -> list ntype -> env -> nat -> list node -> option (env * nat) :=
  fix go pl b e i l :=
    match l with
    | [] => Some (e, i)
    | n :: r => match f pl b e i n r with Some (e1, j) => go pl (n_type n :: b) e1 j r | None => None end
    end.

Definition retb (D : decls) (src : text) (e : env) (ret : list token) : option ty :=
  match ret with [] => Some TVoid | _ => typ D src e ret end.
Lemma retb_ret : forall D src e ret r, retb D src e ret = Some r -> ret = [] /\ r = TVoid \/ type_at D src e ret r.
Proof. intros D src e [|t ret] r H; cbn [retb] in H; [left; inversion H; auto|right; now apply typ_type]. Qed.

Definition exb (D : decls) (w : world) (src : text) (e : env) (v : expr) : option texpr :=
  if floatless w src v then elab_of D w src e v else None.
Lemma exb_ex : forall D w src e v y, exb D w src e v = Some y -> elab D w src e v y /\ in_range w src v.
Proof.
  intros D w src e v y H. unfold exb in H. destruct (floatless w src v) eqn:F; [|discriminate]. split; [now apply elab_of_elab|now apply floatless_range].
Qed.
Definition voidcall (v : expr) (y : texpr) : bool := match v, x_ty y with ECall _ _ _, TVoid => true | _, _ => false end.
Definition typeexpr (v : expr) : bool := match v with EVar _ => true | EUn URef _ => true | _ => false end.
Definition selfset (k : nat) (y : texpr) : bool := match y with XVar _ j _ _ => (j =? k)%nat | _ => false end.

Definition defb (D : decls) (w : world) (src : text) (e : env) (i : nat) (tok te name : list token) (v : expr) (implicit const exported : bool) : option (env * nat) :=
  match name, te with
  | nm :: rest, q :: r =>
      if untyped D src e r then
        match exb D w src e v with
        | Some y =>
            let x := word src nm in
            if spelt src nm && newb e x && is_decl D i (Some (DVar (x_ty y) (negb const))) && negb (voidcall v y) &&
               (implicit || match typ D src e rest with Some t => if ty_dec t (x_ty y) then true else false | None => false end)
            then Some ((x, i) :: e, S i) else None
        | None => None
        end
      else
        match tok with
        | t :: q :: r =>
            match typ D src e r with
            | Some ty =>
                let x := word src t in
                if implicit && const && negb exported && typeexpr v && spelt src t && newb e x && is_decl D i (Some (DType (Some ty)))
                then Some ((x, i) :: e, S i) else None
            | None => None
            end
        | _ => None
        end
  | _, _ => None
  end.

Fixpoint stmtb (D : decls) (w : world) (src : text) (pl : place) (b : list ntype) (e : env) (i : nat) (n : node) (a : list node) {struct n}
    : option (env * nat) :=
  match n with
  | mknode ty tok te pay child =>
      let leaf := match child with [] => true | _ => false end in
      let sub pl e i := blockb (stmtb D w src) pl [] e i child in
      match ty, pay with
      | N_VAR_DEF, PVarDef name v implicit const exported => if leaf then defb D w src e i tok te name v implicit const exported else None
      | N_VAR_ASSIGN, PAssign v =>
          match tok, exb D w src e v with
          | t :: q, Some y =>
              if leaf && spelt src t then
                match resolve D 9 e (word src t) with
                | Some k => match D k with
                            | Some (DVar ty true) => if ty_dec (x_ty y) ty then if selfset k y then None else Some (e, i) else None
                            | _ => None
                            end
                | None => None
                end
              else None
          | _, _ => None
          end
      | N_EXPR, PExpr (ECall f l m) => if leaf then match exb D w src e (ECall f l m) with Some _ => Some (e, i) | None => None end else None
      | N_RETURN, PExpr v =>
          match exb D w src e v with
          | Some y =>
              if leaf && quietb a then
                match p_result pl with
                | Some r => if ty_dec r TVoid then None else if ty_dec (x_ty y) r then Some (e, i) else None
                | None => if p_exits pl then if ty_dec (x_ty y) TInt then Some (e, i) else None else None
                end
              else None
          | None => None
          end
      | N_RETURN, PNone => if leaf && quietb a then match p_result pl with Some TVoid => Some (e, i) | _ => None end else None
      | N_UNREACHABLE, _ => if leaf && quietb a then Some (e, i) else None
      | (N_BREAK | N_CONTINUE), _ => if leaf && quietb a && (0 <? p_loops pl) then Some (e, i) else None
      | (N_IF | N_ELIF), PExpr v =>
          match exb D w src e v with
          | Some y =>
              if negb leaf && (match ty with N_IF => true | _ => ifb b end) && (if ty_dec (x_ty y) TBool then true else false) then
                match sub (in_block pl) e i with Some (_, j) => Some (e, j) | None => None end
              else None
          | None => None
          end
      | N_ELSE, _ =>
          if negb leaf && ifb b then match sub (in_block pl) e i with Some (_, j) => Some (e, j) | None => None end else None
      | N_WHILE, PExpr v =>
          match exb D w src e v with
          | Some y =>
              if negb leaf && (p_loops pl + 1 <? 2 ^ 32) && (if ty_dec (x_ty y) TBool then true else false) then
                match sub (in_loop pl) e i with Some (_, j) => Some (e, j) | None => None end
              else None
          | None => None
          end
      | N_FUNCTION_PROTO, PProto name ret num ext exp ps =>
          match retb D src e ret, p_result pl with
          | Some r, None =>
              let x := word src name in
              match parb D src ((x, i) :: e) (S i) ps with
              | Some (ts, e1, j) =>
                  if spelt src name && newb e x && is_decl D i (Some (DFun ts r)) && (negb (ext || exp) || p_top pl) then
                    if ext then
                      if leaf && (negb (p_exits pl) || match r with TInt | TVoid => true | _ => false end) then Some ((x, i) :: e, j) else None
                    else
                      if (if ty_dec r TVoid then true else ends child) then
                        match sub (in_function r pl) e1 j with Some (_, j) => Some ((x, i) :: e, j) | None => None end
                      else None
                  else None
              | None => None
              end
          | _, _ => None
          end
      | N_NAMESPACE, _ =>
          match tok with
          | q :: t :: r =>
              let x := word src t in
              if spelt src t && newb e x && is_decl D i None then
                match sub (in_block pl) ((x, i) :: e) (S i) with
                | Some (e2, j) => if is_decl D j (Some (DSpace e2)) then Some ((x, j) :: e, S j) else None
                | None => None
                end
              else None
          | _ => None
          end
      | N_IMPORT, _ =>
          match tok with
          | q :: t :: r => if leaf && spelt src t && is_valid_identifier_str (word src t) && negb (last (word src t) 0 =? chr ":") && w_module w (word src t)
                           then Some (e, i) else None
          | _ => None
          end
      | (N_COMMENT | N_NOOP | N_UNKNOWN), _ => if leaf then Some (e, i) else None
      | _, _ => None
      end
  end.

Lemma defb_legal : forall D w src pl b a e i tok te child name v implicit const exported e' j,
  child = [] -> defb D w src e i tok te name v implicit const exported = Some (e', j) ->
  legal_stmt D w src pl b e (mknode N_VAR_DEF tok te (PVarDef name v implicit const exported) child) a e'.
Proof.
  intros D w src pl b a e i tok te child name v implicit const exported e' j -> H. unfold defb in H.
  destruct name as [|nm rest]; [discriminate|]. destruct te as [|q r]; [discriminate|]. destruct (untyped D src e r) eqn:UT.
  - destruct (exb D w src e v) as [y|] eqn:EX; [|discriminate]. apply exb_ex in EX as (EL & RA). cbv zeta in H.
    match type of H with (if ?c then _ else _) = _ => destruct c eqn:C; [|discriminate] end. inversion H; subst.
    apply andb_true_iff in C as (C & C5). apply andb_true_iff in C as (C & C4). apply andb_true_iff in C as (C & C3). apply andb_true_iff in C as (C1 & C2).
    apply lg_definition with nm rest v implicit const exported y q r; auto; [now apply untyped_none| | |now apply spelt_spells|now apply newb_new|now apply is_decl_true in C3].
    + intros f l m -> X. unfold voidcall in C4. rewrite X in C4. discriminate.
    + intros ->. cbn [orb] in C5. destruct (typ D src e rest) as [t|] eqn:T; [|discriminate]. destruct (ty_dec t (x_ty y)) as [<-|]; [|discriminate]. now apply typ_type.
  - destruct tok as [|t [|q' r']]; try discriminate. destruct (typ D src e r') as [ty|] eqn:T; [|discriminate]. cbv zeta in H.
    match type of H with (if ?c then _ else _) = _ => destruct c eqn:C; [|discriminate] end. inversion H; subst.
    apply andb_true_iff in C as (C & C7). apply andb_true_iff in C as (C & C6). apply andb_true_iff in C as (C & C5). apply andb_true_iff in C as (C & C4).
    apply andb_true_iff in C as (C & C3). apply andb_true_iff in C as (C1 & C2). subst implicit const. destruct exported; [discriminate|].
    apply lg_alias with (nm :: rest) v t q' r' ty; auto; [now apply typ_type| |now apply spelt_spells|now apply newb_new|now apply is_decl_true in C7].
    destruct v; try discriminate; [left; eauto|]. destruct o; try discriminate. right; eauto.
Qed.

Definition good (D : decls) (w : world) (src : text) (n : node) : Prop := forall pl b e i a e' j,
  stmtb D w src pl b e i n a = Some (e', j) -> legal_stmt D w src pl b e n a e'.
Lemma blockb_legal : forall D w src l, Forall (good D w src) l -> forall pl b e i e' j,
  blockb (stmtb D w src) pl b e i l = Some (e', j) -> legal_block D w src pl b e l e'.
Proof.
  intros D w src l G. induction G as [|n l GN G IH]; intros pl b e i e' j H; cbn [blockb] in H; [inversion H; subst; constructor|].
  destruct (stmtb D w src pl b e i n l) as [(e1 & i1)|] eqn:S1; [|discriminate]. apply lb_cons with e1; [exact (GN _ _ _ _ _ _ _ S1)|exact (IH _ _ _ _ _ _ H)].
Qed.

Ltac bools := repeat match goal with H : _ && _ = true |- _ => apply andb_true_iff in H as (? & ?) end.
Lemma stmtb_good : forall D w src n, good D w src n.
Proof.
  intros D w src n. induction n as [ty tok te pay child IH] using node_ind'. intros pl b e i a e' j H. cbn [stmtb] in H. cbv zeta in H.
  pose proof (blockb_legal D w src child IH) as BL.
  assert (LF : (match child with [] => true | _ => false end) = true -> child = []) by (destruct child; [reflexivity|discriminate]).
  assert (NLF : negb (match child with [] => true | _ => false end) = true -> child <> []) by (destruct child; [discriminate|intros _ X; discriminate]).
  set (leaf := match child with [] => true | _ => false end) in *.
  destruct ty; destruct pay; try discriminate;
    try (destruct leaf; [|discriminate]; inversion H; subst; apply lg_idle; cbn [n_type n_child]; auto; fail);
    try (destruct (leaf && quietb a) eqn:C; [|discriminate]; bools; inversion H; subst; apply lg_unreachable; cbn [n_type n_child]; auto; now apply quietb_nothing);
    try (destruct (leaf && quietb a && (0 <? p_loops pl)) eqn:C; [|discriminate]; bools; inversion H; subst; apply lg_jump; cbn [n_type n_child]; auto;
         [now apply quietb_nothing|now apply N.ltb_lt]).
  all: try (destruct (negb leaf && ifb b) eqn:C; [|discriminate]; bools; destruct (blockb _ _ _ _ _ _) as [(e1 & j1)|] eqn:B; [|discriminate];
            inversion H; subst; apply lg_else with e1; cbn [n_type n_child]; auto; [now apply ifb_if|now apply BL in B]).
  all: try (destruct tok as [|q [|t r]]; try discriminate; destruct (leaf && _ && _ && _ && _) eqn:C; [|discriminate]; bools; inversion H; subst;
            apply lg_import with q t r (word src t); cbn [n_type n_child n_token]; auto;
            [now apply spelt_spells|apply name_of; now apply andb_true_iff]).
  all: try (destruct tok as [|q [|t r]]; try discriminate; destruct (spelt src t && newb e (word src t) && is_decl D i None) eqn:C; [|discriminate]; bools;
            destruct (blockb _ _ _ _ _ _) as [(e1 & j1)|] eqn:B; [|discriminate]; destruct (is_decl D j1 (Some (DSpace e1))) eqn:DS; [|discriminate];
            inversion H; subst; apply lg_namespace with t q r i e1; cbn [n_type n_child n_token]; auto;
            [now apply spelt_spells|now apply newb_new|now apply is_decl_true|now apply BL in B|now apply is_decl_true]).
  - destruct leaf; [|discriminate]. exact (defb_legal D w src pl b a e i tok te child name e0 is_implicit is_const is_exported e' j (LF eq_refl) H).
  - destruct tok as [|t q]; [discriminate|]. destruct (exb D w src e e0) as [y|] eqn:EX; [|discriminate]. apply exb_ex in EX as (EL & RA).
    destruct (leaf && spelt src t) eqn:C; [|discriminate]. bools. destruct (resolve D 9 e (word src t)) as [k|] eqn:R; [|discriminate].
    destruct (D k) as [[t1 [|]| | |]|] eqn:DK; try discriminate. destruct (ty_dec (x_ty y) t1) as [XT|]; [|discriminate].
    destruct (selfset k y) eqn:SS; [discriminate|]. inversion H; subst e' j.
    apply lg_assignment with e0 t q (word src t) k t1 y; cbn [n_type n_child n_token n_pay]; auto; [now apply spelt_spells|now apply resolve_resolves in R|].
    intros t' ty' c ->. cbn [selfset] in SS. rewrite Nat.eqb_refl in SS. discriminate.
  - destruct (retb D src e ret) as [r|] eqn:RB; [|discriminate]. apply retb_ret in RB. destruct (p_result pl) eqn:PR; [discriminate|].
    destruct (parb D src ((word src name, i) :: e) (S i) params) as [((ts & e1) & j1)|] eqn:PB; [|discriminate]. apply parb_legal in PB.
    destruct (spelt src name && _ && _ && _) eqn:C; [|discriminate]. bools. destruct is_external.
    + destruct (leaf && _) eqn:C2; [|discriminate]. bools. inversion H; subst.
      apply lg_external with name ret num_params is_export params ts r e1; cbn [n_type n_child n_token n_pay]; auto;
        [|now apply spelt_spells|now apply newb_new|now apply is_decl_true].
      intro PE. match goal with X : negb (p_exits pl) || _ = true |- _ => rewrite PE in X; destruct r; try discriminate X; auto end.
    + destruct (if ty_dec r TVoid then true else ends child) eqn:EN; [|discriminate].
      destruct (blockb _ _ _ _ _ _) as [(e2 & j2)|] eqn:B; [|discriminate]. inversion H; subst.
      apply lg_function with name ret num_params is_export params ts r e1 e2; cbn [n_type n_child n_token n_pay]; auto;
        [|now apply spelt_spells|now apply newb_new|now apply is_decl_true|now apply BL in B|].
      * intros ->. assumption.
      * intro NV. destruct (ty_dec r TVoid); [contradiction|]. now apply ends_value.
  - destruct e0; try discriminate. destruct leaf; [|discriminate]. match type of H with context [exb ?a ?b ?c ?d ?x] => destruct (exb a b c d x) as [y|] eqn:EX; [|discriminate] end.
    apply exb_ex in EX as (EL & RA). inversion H; subst. apply lg_call with name args num_values y; cbn [n_type n_child n_token n_pay]; auto.
  - destruct (leaf && quietb a) eqn:C; [|discriminate]. bools. destruct (p_result pl) as [[ | | | | | | ]|] eqn:PR; try discriminate. inversion H; subst.
    apply lg_return; cbn [n_type n_child n_token n_pay]; auto. now apply quietb_nothing.
  - destruct (exb D w src e e0) as [y|] eqn:EX; [|discriminate]. apply exb_ex in EX as (EL & RA). destruct (leaf && quietb a) eqn:C; [|discriminate]. bools.
    match goal with X : quietb a = true |- _ => apply quietb_nothing in X end.
    destruct (p_result pl) as [r|] eqn:PR.
    + destruct (ty_dec r TVoid); [discriminate|]. destruct (ty_dec (x_ty y) r) as [XT|]; [|discriminate]. inversion H; subst.
      apply lg_result with e0 y (x_ty y); cbn [n_type n_child n_token n_pay]; auto.
    + destruct (p_exits pl) eqn:PE; [|discriminate]. destruct (ty_dec (x_ty y) TInt) as [XT|]; [|discriminate]. inversion H; subst.
      apply lg_exit with e0 y; cbn [n_type n_child n_token n_pay]; auto.
  - destruct (exb D w src e e0) as [y|] eqn:EX; [|discriminate]. apply exb_ex in EX as (EL & RA). destruct (negb leaf && _ && _) eqn:C; [|discriminate]. bools.
    destruct (ty_dec (x_ty y) TBool) as [XT|]; [|discriminate]. destruct (blockb _ _ _ _ _ _) as [(e2 & j2)|] eqn:B; [|discriminate]. inversion H; subst.
    apply lg_if with e0 y e2; cbn [n_type n_child n_token n_pay]; auto. now apply BL in B.
  - destruct (exb D w src e e0) as [y|] eqn:EX; [|discriminate]. apply exb_ex in EX as (EL & RA). destruct (negb leaf && _ && _) eqn:C; [|discriminate]. bools.
    destruct (ty_dec (x_ty y) TBool) as [XT|]; [|discriminate]. destruct (blockb _ _ _ _ _ _) as [(e2 & j2)|] eqn:B; [|discriminate]. inversion H; subst.
    apply lg_if with e0 y e2; cbn [n_type n_child n_token n_pay]; auto; [right; split; [reflexivity|now apply ifb_if]|now apply BL in B].
  - destruct (exb D w src e e0) as [y|] eqn:EX; [|discriminate]. apply exb_ex in EX as (EL & RA). destruct (negb leaf && _ && _) eqn:C; [|discriminate]. bools.
    destruct (ty_dec (x_ty y) TBool) as [XT|]; [|discriminate]. destruct (blockb _ _ _ _ _ _) as [(e2 & j2)|] eqn:B; [|discriminate]. inversion H; subst.
    apply lg_while with e0 y e2; cbn [n_type n_child n_token n_pay]; auto; [now apply N.ltb_lt|now apply BL in B].
Qed.

(** Give what the names declared in a program stand for, in order: then this is decided by computation. *)
Definition legalb (ds : list (option decl)) (exits : bool) (w : world) (src : text) (tree : list node) : bool :=
  match blockb (stmtb (decls_of ds) w src) (mkplace 0 None true exits) [] [] 0 tree with Some _ => true | None => false end.
Lemma legalb_legal : forall ds exits w src tree, legalb ds exits w src tree = true -> legal w src tree.
Proof.
  intros ds exits w src tree H. unfold legalb in H. destruct (blockb _ _ _ _ _ _) as [(e & j)|] eqn:B; [|discriminate].
  exists (decls_of ds), exits, e. apply blockb_legal in B; [exact B|]. apply Forall_forall. intros n _. apply stmtb_good.
Qed.
