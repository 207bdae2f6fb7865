(** Reading and running C programs by computation, for examples. *)
From Coq Require Import List Arith NArith ZArith Bool Lia Ascii String.
From Verif Require Import Base Spec_C Spec_CProg Spec_Run Spec_CRun Model_Helpers Proof_C.
Import ListNotations.
Open Scope list_scope.
Open Scope nat_scope.

Lemma is_op_eq : forall t o, is_op t o = true -> t = KOp o.
Proof. intros [n|n|n|n] o E; try discriminate E. cbn in E. apply text_eqb_eq in E. now subst. Qed.

(** * Expressions *)

Fixpoint px (f : nat) (ts : list ctok) {struct f} : option (cexp * list ctok) :=
  match f with
  | O => None
  | S f =>
      match ts with
      | KId n :: t :: r =>
          if c_name n then
            if is_op t (u "(") then
              match r with
              | t' :: r' =>
                  if is_op t' (u ")") then Some (CCall (CId n) [], r')
                  else match pargs f r with Some (es, r) => Some (CCall (CId n) es, r) | None => None end
              | [] => None
              end
            else Some (CId n, t :: r)
          else None
      | KNum n :: r => Some (CNum n, r)
      | KStr s :: r => Some (CStr s, r)
      | KOp o :: r =>
          if text_eqb o (u "(") then
            match pe f r with
            | Some (e, t :: r) => if is_op t (u ")") then Some (e, r) else None
            | _ => None
            end
          else if existsb (text_eqb o) unary_ops then match px f r with Some (e, r) => Some (CUn o e, r) | None => None end
          else None
      | _ => None
      end
  end
with pe (f : nat) (ts : list ctok) {struct f} : option (cexp * list ctok) :=
  match f with
  | O => None
  | S f =>
      match px f ts with
      | Some (a, KOp o :: r) =>
          match level_of o with
          | Some n => match px f r with Some (b, r) => Some (CBin o a b, r) | None => None end
          | None => Some (a, KOp o :: r)
          end
      | x => x
      end
  end
with pargs (f : nat) (ts : list ctok) {struct f} : option (list cexp * list ctok) :=
  match f with
  | O => None
  | S f =>
      match pe f ts with
      | Some (e, t :: r) =>
          if is_op t (u ")") then Some ([e], r)
          else if is_op t (u ",") then match pargs f r with Some (es, r) => Some (e :: es, r) | None => None end
          else None
      | _ => None
      end
  end.

Lemma level_ge : forall o n, level_of o = Some n -> 3 <= n <= 12.
Proof.
  intros o n E. unfold level_of in E. repeat match type of E with (if ?b then _ else _) = _ => destruct b end; inversion E; subst; lia.
Qed.
Lemma px_sound : forall f,
  (forall ts e r, px f ts = Some (e, r) -> exists used, ts = used ++ r /\ reads 2 used e) /\
  (forall ts e r, pe f ts = Some (e, r) -> exists used, ts = used ++ r /\ reads 12 used e) /\
  (forall ts es r, pargs f ts = Some (es, r) -> exists used, ts = used ++ KOp (u ")") :: r /\ reads_list used es).
Proof.
  induction f as [|f (I1 & I2 & I3)]; [repeat split; discriminate|].
  assert (UP : forall ts e, reads 2 ts e -> reads 12 ts e) by (intros ts e X; exact (reads_higher 2 12 ts e ltac:(lia) ltac:(lia) X)).
  assert (UP0 : forall ts e, reads 0 ts e -> reads 2 ts e) by (intros ts e X; exact (reads_higher 0 2 ts e ltac:(lia) ltac:(lia) X)).
  assert (UP1 : forall ts e, reads 1 ts e -> reads 2 ts e) by (intros ts e X; exact (reads_higher 1 2 ts e ltac:(lia) ltac:(lia) X)).
  split; [|split].
  - intros ts e r E. cbn [px] in E. destruct ts as [|[n|n|s|o] ts]; try discriminate E.
    + destruct ts as [|t ts]; [discriminate E|]. destruct (c_name n) eqn:CN; [|discriminate E]. destruct (is_op t (u "(")) eqn:O.
      * apply is_op_eq in O. subst t. destruct ts as [|t' ts]; [discriminate E|].
        assert (ID : reads 1 [KId n] (CId n)) by (apply R_up; [lia|now apply R_id]).
        destruct (is_op t' (u ")")) eqn:O'.
        -- apply is_op_eq in O'. subst t'. injection E as <- <-. exists ([KId n] ++ KOp (u "(") :: [] ++ [KOp (u ")")]). split; [reflexivity|]. apply UP1, R_call; [exact ID|constructor].
        -- destruct (pargs f (t' :: ts)) as [(es, r')|] eqn:P; [|discriminate E]. injection E as <- <-. apply I3 in P as (us & EQ & RL).
           exists ([KId n] ++ KOp (u "(") :: us ++ [KOp (u ")")]). split; [rewrite EQ, <- !app_assoc; cbn [app]; now rewrite <- app_assoc|]. apply UP1, R_call; [exact ID|now constructor].
      * injection E as <- <-. exists [KId n]. split; [reflexivity|]. apply UP0. now constructor.
    + injection E as <- <-. exists [KNum n]. split; [reflexivity|]. apply UP0. constructor.
    + injection E as <- <-. exists [KStr s]. split; [reflexivity|]. apply UP0. constructor.
    + destruct (text_eqb o (u "(")) eqn:O.
      * apply text_eqb_eq in O. subst o. destruct (pe f ts) as [(e0, [|t r0])|] eqn:P; try discriminate E. destruct (is_op t (u ")")) eqn:O; [|discriminate E].
        apply is_op_eq in O. subst t. injection E as <- <-. apply I2 in P as (us & -> & RD). exists (KOp (u "(") :: us ++ [KOp (u ")")]). split; [cbn [app]; now rewrite <- app_assoc|]. apply UP0. now constructor.
      * destruct (existsb (text_eqb o) unary_ops) eqn:U; [|discriminate E]. destruct (px f ts) as [(e0, r0)|] eqn:P; [|discriminate E]. injection E as <- <-.
        apply I1 in P as (us & -> & RD). exists (KOp o :: us). split; [reflexivity|]. constructor; [|exact RD]. apply existsb_exists in U as (o' & IN & EQ). apply text_eqb_eq in EQ. now subst.
  - intros ts e r E. cbn [pe] in E. destruct (px f ts) as [(a, r0)|] eqn:P; [|discriminate E].
    assert (D : Some (a, r0) = Some (e, r) -> exists used, ts = used ++ r /\ reads 12 used e).
    { intro X. injection X as <- <-. apply I1 in P as (us & -> & RD). exists us. split; [reflexivity|now apply UP]. }
    destruct r0 as [|[n|n|s|o] r0]; try exact (D E). destruct (level_of o) as [n|] eqn:L; [|exact (D E)].
    destruct (px f r0) as [(b, r1)|] eqn:P2; [|discriminate E]. injection E as <- <-. apply I1 in P as (us & -> & RD). apply I1 in P2 as (us2 & -> & RD2).
    exists (us ++ KOp o :: us2). split; [now rewrite <- app_assoc|]. pose proof (level_ge _ _ L) as G. destruct n as [|n]; [lia|].
    apply (reads_higher (S n) 12); [lia|lia|]. apply R_bin; [exact L| |]; [apply (reads_higher 2 (S n))|apply (reads_higher 2 n)]; auto; lia.
  - intros ts es r E. cbn [pargs] in E. destruct (pe f ts) as [(e, [|t r0])|] eqn:P; try discriminate E. apply I2 in P as (us & -> & RD). destruct (is_op t (u ")")) eqn:O.
    + apply is_op_eq in O. subst t. injection E as <- <-. exists us. split; [reflexivity|now constructor].
    + destruct (is_op t (u ",")) eqn:O2; [|discriminate E]. apply is_op_eq in O2. subst t. destruct (pargs f r0) as [(es0, r1)|] eqn:P2; [|discriminate E]. injection E as <- <-.
      apply I3 in P2 as (us2 & -> & RL). exists (us ++ KOp (u ",") :: us2). split; [now rewrite <- app_assoc|now constructor].
Qed.
Definition pto (f : nat) (stop : string) (ts : list ctok) : option (cexp * list ctok) :=
  match pe f ts with Some (e, t :: r) => if is_op t (u stop) then Some (e, r) else None | _ => None end.
Lemma pto_sound : forall f stop ts e r, pto f stop ts = Some (e, r) -> expr_to stop ts e r.
Proof.
  intros f stop ts e r E. unfold pto in E. destruct (pe f ts) as [(e0, [|t r0])|] eqn:P; try discriminate E. destruct (is_op t (u stop)) eqn:O; [|discriminate E].
  apply is_op_eq in O. subst t. injection E as <- <-. apply (proj1 (proj2 (px_sound f))) in P as (us & -> & RD). exists us. auto.
Qed.

(** * Statements and definitions *)
Section Read.
Variable c23 : bool.

Fixpoint pstars (t : cty) (ts : list ctok) : cty * list ctok :=
  match ts with
  | x :: r => if is_op x (u "*") then pstars (TyPtr t) r else (t, ts)
  | [] => (t, [])
  end.
Lemma pstars_sound : forall ts t t' r, pstars t ts = (t', r) -> stars_at t ts t' r.
Proof.
  induction ts as [|x ts IH]; intros t t' r E; cbn [pstars] in E; [injection E as <- <-; constructor; discriminate|].
  destruct (is_op x (u "*")) eqn:O; [apply is_op_eq in O; subst x; constructor; now apply IH|]. injection E as <- <-. constructor. intro X. injection X as ->. discriminate O.
Qed.
Definition plookup (n : text) : option cty := option_map snd (List.find (fun p => text_eqb (fst p) n) (type_words c23)).
Lemma plookup_some : forall n t, plookup n = Some t -> type_word c23 n t.
Proof.
  intros n t E. unfold plookup in E. destruct (List.find _ _) as [(a, b)|] eqn:F; [|discriminate E]. injection E as <-. apply List.find_some in F as (I & EQ). apply text_eqb_eq in EQ. cbn [fst] in EQ. now subst.
Qed.
Lemma plookup_none : forall n t, plookup n = None -> ~ type_word c23 n t.
Proof.
  intros n t E I. unfold plookup in E. destruct (List.find _ _) as [(a, b)|] eqn:F; [discriminate E|]. pose proof (List.find_none _ _ F _ I) as X. cbn [fst] in X.
  assert (text_eqb n n = true) by now apply text_eqb_eq. congruence.
Qed.
Definition ptype (ts : list ctok) : option (cty * list ctok) :=
  match ts with
  | KId n :: r => match plookup n with Some t => Some (pstars t r) | None => None end
  | _ => None
  end.
Lemma ptype_sound : forall ts t r, ptype ts = Some (t, r) -> type_at c23 ts t r.
Proof.
  intros ts t r E. unfold ptype in E. destruct ts as [|[n|n|s|o] ts]; try discriminate E. destruct (plookup n) as [t0|] eqn:P; [|discriminate E].
  injection E as E. exists n, t0, ts. split; [reflexivity|]. split; [now apply plookup_some|now apply pstars_sound].
Qed.
Definition no_typeb (ts : list ctok) : bool := match ts with KId n :: _ => match plookup n with Some _ => false | None => true end | _ => true end.
Lemma no_type_of : forall ts, no_typeb ts = true -> no_type c23 ts.
Proof. intros ts E n r -> t. cbn [no_typeb] in E. destruct (plookup n) eqn:P; [discriminate E|]. now apply plookup_none. Qed.
Definition is_kw (t : ctok) (s : string) : bool := match t with KId n => text_eqb n (u s) | _ => false end.
Lemma is_kw_eq : forall t s, is_kw t s = true -> t = kw s.
Proof. intros [n|n|n|n] s E; try discriminate E. cbn in E. apply text_eqb_eq in E. now subst. Qed.

Definition pdecl (f : nat) (q : bool) (ts : list ctok) : option (cstmt * list ctok) :=
  match ptype ts with
  | Some (t, KId x :: o :: r) =>
      if is_op o (u "=") && c_name x then match pto f ";" r with Some (e, r) => Some (CDecl q t x e, r) | None => None end else None
  | _ => None
  end.
Lemma pdecl_sound : forall f (q : bool) ts s r, pdecl f q ts = Some (s, r) -> stmt_at c23 ((if q then [kw "const"] else []) ++ ts) s r.
Proof.
  intros f q ts s r E. unfold pdecl in E. destruct (ptype ts) as [(t, [|[x|n|n|n] [|o r0]])|] eqn:P; try discriminate E.
  destruct (is_op o (u "=")) eqn:O; [|discriminate E]. destruct (c_name x) eqn:CN; [|discriminate E]. cbn [andb] in E. destruct (pto f ";" r0) as [(e, r1)|] eqn:P2; [|discriminate E].
  injection E as <- <-. apply is_op_eq in O. subst o. apply G_decl with (ts' := r0); [now apply ptype_sound|exact CN|now apply pto_sound in P2].
Qed.

Fixpoint pstmt (f : nat) (ts : list ctok) {struct f} : option (cstmt * list ctok) :=
  match f with
  | O => None
  | S f =>
      match ts with
      | t :: r =>
          if is_kw t "const" then pdecl f true r
          else if negb (no_typeb ts) then pdecl f false ts
          else if is_kw t "if" then
            match r with
            | o :: r => if is_op o (u "(") then
                match pto f ")" r with
                | Some (e, r) => match pblock f r with Some (b, r) => match pelse f r with Some (x, r) => Some (CIf e b x, r) | None => None end | None => None end
                | None => None end else None
            | [] => None end
          else if is_kw t "while" then
            match r with
            | o :: r => if is_op o (u "(") then
                match pto f ")" r with
                | Some (e, r) => match pblock f r with Some (b, r) => Some (CWhile e b, r) | None => None end
                | None => None end else None
            | [] => None end
          else if is_kw t "return" then
            match r with
            | o :: r' => if is_op o (u ";") then Some (CReturn None, r') else match pto f ";" r with Some (e, r) => Some (CReturn (Some e), r) | None => None end
            | [] => None end
          else if is_op t (u "{") then match pblock f ts with Some (b, r) => Some (CBlock b, r) | None => None end
          else
            match t, r with
            | KId x, o :: r' =>
                if is_op o (u "=") then (if c_name x then match pto f ";" r' with Some (e, r) => Some (CAssign x e, r) | None => None end else None)
                else match pto f ";" ts with Some (e, r) => Some (CExpr e, r) | None => None end
            | KStr _, _ => match pto f ";" ts with Some (e, r) => Some (CExpr e, r) | None => None end
            | _, _ => None
            end
      | [] => None
      end
  end
with pblock (f : nat) (ts : list ctok) {struct f} : option (list cstmt * list ctok) :=
  match f with
  | O => None
  | S f => match ts with o :: r => if is_op o (u "{") then match pstmts f r with Some (b, o :: r) => if is_op o (u "}") then Some (b, r) else None | _ => None end else None | [] => None end
  end
with pstmts (f : nat) (ts : list ctok) {struct f} : option (list cstmt * list ctok) :=
  match f with
  | O => None
  | S f => match ts with
      | o :: r => if is_op o (u "}") then Some ([], ts) else
          match pstmt f ts with Some (s, r) => match pstmts f r with Some (l, r) => Some (s :: l, r) | None => None end | None => None end
      | [] => None end
  end
with pelse (f : nat) (ts : list ctok) {struct f} : option (option cstmt * list ctok) :=
  match f with
  | O => None
  | S f => match ts with
      | t :: r => if is_kw t "else" then
            match r with
            | o :: _ => if is_op o (u "{") then match pblock f r with Some (b, r) => Some (Some (CBlock b), r) | None => None end
                        else match pstmt f r with Some (CIf e b x, r) => Some (Some (CIf e b x), r) | _ => None end
            | [] => None end
          else Some (None, ts)
      | [] => None end
  end.

Lemma pstmt_sound : forall f,
  (forall ts s r, pstmt f ts = Some (s, r) -> stmt_at c23 ts s r) /\ (forall ts b r, pblock f ts = Some (b, r) -> block_at c23 ts b r) /\
  (forall ts b r, pstmts f ts = Some (b, r) -> hd_error r = Some (op "}") -> stmts_at c23 ts b r) /\ (forall ts x r, pelse f ts = Some (x, r) -> else_at c23 ts x r).
Proof.
  induction f as [|f (I1 & I2 & I3 & I4)]; [repeat split; discriminate|]. split; [|split; [|split]].
  - intros ts s r E. cbn [pstmt] in E. destruct ts as [|t ts]; [discriminate E|]. destruct (is_kw t "const") eqn:K0.
    { apply is_kw_eq in K0. subst t. exact (pdecl_sound _ true _ _ _ E). }
    destruct (no_typeb (t :: ts)) eqn:NT; cbn [negb] in E; [|exact (pdecl_sound _ false _ _ _ E)].
    destruct (is_kw t "if") eqn:K1.
    { apply is_kw_eq in K1. subst t. destruct ts as [|o ts]; [discriminate E|]. destruct (is_op o (u "(")) eqn:O; [|discriminate E]. apply is_op_eq in O. subst o.
      destruct (pto f ")" ts) as [(e, r1)|] eqn:P1; [|discriminate E]. destruct (pblock f r1) as [(b, r2)|] eqn:P2; [|discriminate E]. destruct (pelse f r2) as [(x, r3)|] eqn:P3; [|discriminate E].
      injection E as <- <-. apply G_if with (r1 := r1) (r2 := r2); [now apply pto_sound in P1|now apply I2|now apply I4]. }
    destruct (is_kw t "while") eqn:K2.
    { apply is_kw_eq in K2. subst t. destruct ts as [|o ts]; [discriminate E|]. destruct (is_op o (u "(")) eqn:O; [|discriminate E]. apply is_op_eq in O. subst o.
      destruct (pto f ")" ts) as [(e, r1)|] eqn:P1; [|discriminate E]. destruct (pblock f r1) as [(b, r2)|] eqn:P2; [|discriminate E].
      injection E as <- <-. apply G_while with (r1 := r1); [now apply pto_sound in P1|now apply I2]. }
    destruct (is_kw t "return") eqn:K3.
    { apply is_kw_eq in K3. subst t. destruct ts as [|o ts]; [discriminate E|]. destruct (is_op o (u ";")) eqn:O; [apply is_op_eq in O; subst o; injection E as <- <-; apply G_return|].
      destruct (pto f ";" (o :: ts)) as [(e, r1)|] eqn:P1; [|discriminate E]. injection E as <- <-. apply G_result. now apply pto_sound in P1. }
    destruct (is_op t (u "{")) eqn:K4.
    { destruct (pblock f (t :: ts)) as [(b, r2)|] eqn:P2; [|discriminate E]. injection E as <- <-. apply G_block. now apply I2. }
    destruct t as [x|n|n|n]; try discriminate E.
    2:{ destruct (pto f ";" (KStr n :: ts)) as [(e, r1)|] eqn:P1; [|discriminate E]. injection E as <- <-. apply G_expr; [now apply no_type_of|now apply pto_sound in P1]. }
    destruct ts as [|o ts]; [discriminate E|]. destruct (is_op o (u "=")) eqn:O.
    + apply is_op_eq in O. subst o. destruct (c_name x) eqn:CN; [|discriminate E]. destruct (pto f ";" ts) as [(e, r1)|] eqn:P1; [|discriminate E]. injection E as <- <-.
      apply G_assign; [exact CN|apply no_type_of; exact NT|now apply pto_sound in P1].
    + destruct (pto f ";" (KId x :: o :: ts)) as [(e, r1)|] eqn:P1; [|discriminate E]. injection E as <- <-. apply G_expr; [now apply no_type_of|now apply pto_sound in P1].
  - intros ts b r E. cbn [pblock] in E. destruct ts as [|o ts]; [discriminate E|]. destruct (is_op o (u "{")) eqn:O; [|discriminate E]. apply is_op_eq in O. subst o.
    destruct (pstmts f ts) as [(b0, [|o r0])|] eqn:P; try discriminate E. destruct (is_op o (u "}")) eqn:O; [|discriminate E]. apply is_op_eq in O. subst o. injection E as <- <-.
    apply G_braces. now apply I3.
  - intros ts b r E HD. cbn [pstmts] in E. destruct ts as [|o ts]; [discriminate E|]. destruct (is_op o (u "}")) eqn:O.
    + apply is_op_eq in O. subst o. injection E as <- <-. apply G_nil.
    + destruct (pstmt f (o :: ts)) as [(s, r1)|] eqn:P1; [|discriminate E]. destruct (pstmts f r1) as [(l, r2)|] eqn:P2; [|discriminate E]. injection E as <- <-.
      apply G_cons with r1; [now apply I1|now apply I3].
  - intros ts x r E. cbn [pelse] in E. destruct ts as [|t ts]; [discriminate E|]. destruct (is_kw t "else") eqn:K.
    + apply is_kw_eq in K. subst t. destruct ts as [|o ts]; [discriminate E|]. destruct (is_op o (u "{")) eqn:O.
      * destruct (pblock f (o :: ts)) as [(b, r1)|] eqn:P; [|discriminate E]. injection E as <- <-. apply G_else. now apply I2.
      * destruct (pstmt f (o :: ts)) as [([ | | | |e b x0| | | | | ], r1)|] eqn:P; try discriminate E. injection E as <- <-. apply G_else_if. now apply I1.
    + injection E as <- <-. apply G_no_else. intro X. injection X as ->. discriminate K.
Qed.

Fixpoint pparams (f : nat) (ts : list ctok) : option (list (cty * text) * list ctok) :=
  match f with
  | O => None
  | S f =>
      match ptype ts with
      | Some (t, KId x :: o :: r) =>
          if c_name x then
            if is_op o (u ")") then Some ([(t, x)], r)
            else if is_op o (u ",") then match pparams f r with Some (p :: ps, r) => Some ((t, x) :: p :: ps, r) | _ => None end
            else None
          else None
      | _ => None
      end
  end.
Lemma pparams_sound : forall f ts ps r, pparams f ts = Some (ps, r) -> params_at c23 ts ps r.
Proof.
  induction f as [|f IH]; intros ts ps r E; [discriminate E|]. cbn [pparams] in E. destruct (ptype ts) as [(t, [|[x|n|n|n] [|o r0]])|] eqn:P; try discriminate E. apply ptype_sound in P.
  destruct (c_name x) eqn:CN; [|discriminate E]. destruct (is_op o (u ")")) eqn:O; [apply is_op_eq in O; subst o; injection E as <- <-; now apply G_last_param|].
  destruct (is_op o (u ",")) eqn:O2; [|discriminate E]. apply is_op_eq in O2. subst o. destruct (pparams f r0) as [([|p ps0], r1)|] eqn:P2; try discriminate E. injection E as <- <-.
  apply G_more_params with (ts' := r0); [exact P|exact CN|discriminate|now apply IH].
Qed.
Definition pparams1 (f : nat) (ts : list ctok) : option (list (cty * text) * list ctok) :=
  match ts with
  | t :: o :: r => if is_kw t "void" && is_op o (u ")") then Some ([], r) else pparams f ts
  | _ => pparams f ts
  end.
Lemma pparams1_sound : forall f ts ps r, pparams1 f ts = Some (ps, r) -> params_at c23 ts ps r.
Proof.
  intros f ts ps r E. unfold pparams1 in E. destruct ts as [|t [|o ts]]; try (now apply pparams_sound in E). destruct (is_kw t "void") eqn:K; [|now apply pparams_sound in E].
  destruct (is_op o (u ")")) eqn:O; [|now apply pparams_sound in E]. apply is_kw_eq in K. apply is_op_eq in O. subst. injection E as <- <-. apply G_void_params.
Qed.
Definition plabel (ts : list ctok) : option text * list ctok :=
  match ts with
  | a :: b :: KStr s :: c :: r => if is_kw a "__asm__" && is_op b (u "(") && is_op c (u ")") then (Some s, r) else (None, ts)
  | _ => (None, ts)
  end.
Definition pdef (f : nat) (ts : list ctok) : option (cdef * list ctok) :=
  let '(s, ts) := match ts with t :: r => if is_kw t "static" then (true, r) else (false, ts) | [] => (false, ts) end in
  let '(q, ts) := match ts with t :: r => if is_kw t "const" then (true, r) else (false, ts) | [] => (false, ts) end in
  match ptype ts with
  | Some (t, KId x :: o :: r) =>
      if c_name x then
        if is_op o (u "(") then
          if q then None else
          match pparams1 f r with
          | Some (ps, r) =>
              match r with
              | b :: _ =>
                  if is_op b (u "{") then match pblock f r with Some (b, r) => Some (FFunc s t x ps b, r) | None => None end
                  else
                    let '(l, r) := plabel r in
                    match r with e :: r => if is_op e (u ";") then Some (FProto s t x ps l, r) else None | [] => None end
              | [] => None
              end
          | None => None
          end
        else
          let '(l, r) := plabel (o :: r) in
          match r with
          | e :: r =>
              if is_op e (u ";") then Some (FVar s q t x l None, r)
              else if is_op e (u "=") then match pto f ";" r with Some (e, r) => Some (FVar s q t x l (Some e), r) | None => None end
              else None
          | [] => None
          end
      else None
  | _ => None
  end.
Lemma plabel_sound : forall ts l t r, plabel ts = (l, t :: r) -> is_kw t "__asm__" = false -> label_at ts l (t :: r).
Proof.
  intros ts l t r E NK. unfold plabel in E.
  assert (D : (None, ts) = (l, t :: r) -> label_at ts l (t :: r)). { intro X. injection X as <- ->. constructor. intro Y. injection Y as ->. discriminate NK. }
  destruct ts as [|a [|b [|[n|n|s|n] [|c ts]]]]; try exact (D E). destruct (is_kw a "__asm__") eqn:A; [|exact (D E)]. destruct (is_op b (u "(")) eqn:B; [|exact (D E)]. destruct (is_op c (u ")")) eqn:C; [|exact (D E)].
  apply is_kw_eq in A. apply is_op_eq in B, C. subst. cbn [andb] in E. injection E as <- ->. constructor.
Qed.
Lemma pdef_sound : forall f ts d r, pdef f ts = Some (d, r) -> def_at c23 ts d r.
Proof.
  intros f ts d r E. unfold pdef in E.
  destruct (match ts with t :: r => if is_kw t "static" then (true, r) else (false, ts) | [] => (false, ts) end) as (s, ts1) eqn:E1.
  destruct (match ts1 with t :: r => if is_kw t "const" then (true, r) else (false, ts1) | [] => (false, ts1) end) as (q, ts2) eqn:E2.
  assert (W1 : word_at s "static" ts ts1). { destruct ts as [|t ts]; [injection E1 as <- <-; reflexivity|]. destruct (is_kw t "static") eqn:K; injection E1 as <- <-; [apply is_kw_eq in K; now subst|reflexivity]. }
  assert (W2 : word_at q "const" ts1 ts2). { destruct ts1 as [|t ts1]; [injection E2 as <- <-; reflexivity|]. destruct (is_kw t "const") eqn:K; injection E2 as <- <-; [apply is_kw_eq in K; now subst|reflexivity]. }
  clear E1 E2. destruct (ptype ts2) as [(t, [|[x|n|n|n] [|o r0]])|] eqn:P; try discriminate E. apply ptype_sound in P. destruct (c_name x) eqn:CN; [|discriminate E]. destruct (is_op o (u "(")) eqn:O.
  - destruct q; [discriminate E|]. unfold word_at in W2. cbn [app] in W2. subst ts2. apply is_op_eq in O. subst o. destruct (pparams1 f r0) as [(ps, [|b r1])|] eqn:P1; try discriminate E. apply pparams1_sound in P1.
    destruct (is_op b (u "{")) eqn:B.
    + destruct (pblock f (b :: r1)) as [(body, r2)|] eqn:P2; [|discriminate E]. injection E as <- <-. apply (proj1 (proj2 (pstmt_sound f))) in P2. now apply G_func with (ts1 := ts1) (ts2 := r0) (ts3 := b :: r1).
    + destruct (plabel (b :: r1)) as (l, [|e r2]) eqn:L; [discriminate E|]. destruct (is_op e (u ";")) eqn:O; [|discriminate E]. apply is_op_eq in O. subst e. injection E as <- <-.
      apply plabel_sound in L; [|reflexivity]. now apply G_proto with (ts1 := ts1) (ts2 := r0) (ts3 := b :: r1).
  - destruct (plabel (o :: r0)) as (l, [|e r2]) eqn:L; [discriminate E|]. destruct (is_op e (u ";")) eqn:O1.
    + apply is_op_eq in O1. subst e. injection E as <- <-. apply plabel_sound in L; [|reflexivity]. apply G_var with (ts1 := ts1) (ts2 := ts2) (ts3 := o :: r0) (ts4 := op ";" :: r2); auto. constructor.
    + destruct (is_op e (u "=")) eqn:O2; [|discriminate E]. apply is_op_eq in O2. subst e. destruct (pto f ";" r2) as [(e, r3)|] eqn:P2; [|discriminate E]. injection E as <- <-. apply pto_sound in P2.
      apply plabel_sound in L; [|reflexivity]. apply G_var with (ts1 := ts1) (ts2 := ts2) (ts3 := o :: r0) (ts4 := op "=" :: r2); auto. now constructor.
Qed.
Fixpoint punit (f : nat) (ts : list ctok) : option (list cdef) :=
  match f with
  | O => None
  | S f => match ts with [] => Some [] | _ => match pdef f ts with Some (d, r) => match punit f r with Some ds => Some (d :: ds) | None => None end | None => None end end
  end.
Lemma punit_sound : forall f ts ds, punit f ts = Some ds -> unit_at c23 ts ds.
Proof.
  induction f as [|f IH]; intros ts ds E; [discriminate E|]. cbn [punit] in E. destruct ts as [|t ts]; [injection E as <-; constructor|].
  destruct (pdef f (t :: ts)) as [(d, r)|] eqn:P; [|discriminate E]. destruct (punit f r) as [ds0|] eqn:P2; [|discriminate E]. injection E as <-.
  apply G_def with r; [now apply pdef_sound in P|now apply IH].
Qed.
End Read.

(** * Running *)
Section Exec.
Variable H : host.
Variable M : machine H.
Variable hs : list helper.
Variable ds : list cdef.
Local Notation cval := (cval H).
Local Notation cstate := (cstate H).
Local Notation coutcome := (coutcome H).
Local Notation ceval := (ceval H M hs ds).
Local Notation cevals := (cevals H M hs ds).
Local Notation cexec := (cexec H M hs ds).
Local Notation cafter := (cafter H M hs ds).

Definition ctype_eqb (a b : ctype) : bool :=
  match a, b with CInt, CInt | CUInt, CUInt | CLong, CLong | CULong, CULong => true | _, _ => false end.
Fixpoint cty_eqb (a b : cty) : bool :=
  match a, b with
  | TyInt, TyInt | TyInt64, TyInt64 | TyChar32, TyChar32 | TyBool, TyBool | TyDouble, TyDouble | TyVoid, TyVoid | TyChar, TyChar => true
  | TyPtr a, TyPtr b => cty_eqb a b
  | _, _ => false
  end.
Definition val_eqb (a b : cval) : bool :=
  match a, b with VI _ t z, VI _ t' z' => ctype_eqb t t' && Z.eqb z z' | VS _ s, VS _ s' => text_eqb s s' | _, _ => false end.
Definition cell_eqb (a b : cell H) : bool :=
  Bool.eqb (k_const H a) (k_const H b) && cty_eqb (k_type H a) (k_type H b) && val_eqb (k_val H a) (k_val H b).
Lemma ctype_eqb_eq : forall a b, ctype_eqb a b = true -> a = b.
Proof. intros [] []; try discriminate; reflexivity. Qed.
Lemma cty_eqb_eq : forall a b, cty_eqb a b = true -> a = b.
Proof. induction a; intros []; try discriminate; try reflexivity. cbn [cty_eqb]. intro E. now rewrite (IHa _ E). Qed.
Lemma cell_eqb_eq : forall a b, cell_eqb a b = true -> a = b.
Proof.
  intros [q t v] [q' t' v'] E. unfold cell_eqb in E. cbn [k_const k_type k_val] in E. apply andb_true_iff in E as (E & V). apply andb_true_iff in E as (Q & T).
  apply Bool.eqb_prop in Q. apply cty_eqb_eq in T. subst. f_equal. destruct v as [t z|f|s| |]; destruct v' as [t2 z2|f2|s2| |]; try discriminate V; cbn [val_eqb] in V.
  - apply andb_true_iff in V as (A & B). apply ctype_eqb_eq in A. apply Z.eqb_eq in B. now subst.
  - apply text_eqb_eq in V. now subst.
Qed.
Definition same_found (c c' : cstate) (x : text) : bool :=
  match find H c x, find H c' x with Some a, Some b => cell_eqb a b | None, None => true | _, _ => false end.
Definition any_orderb (c c' : cstate) (es : list cexp) : bool :=
  Nat.leb (List.length (filter calling es)) 1 && forallb (fun e => calling e || forallb (same_found c c') (reading e)) es.
Lemma any_orderb_sound : forall c c' es, any_orderb c c' es = true -> any_order H c c' es.
Proof.
  intros c c' es E. unfold any_orderb in E. apply andb_true_iff in E as (A & B). split; [now apply Nat.leb_le|]. intros e x IN NC RD.
  rewrite forallb_forall in B. specialize (B e IN). rewrite NC in B. cbn [orb] in B. rewrite forallb_forall in B. specialize (B x RD). unfold same_found in B.
  destruct (find H c x), (find H c' x); try discriminate B; [apply cell_eqb_eq in B; now subst|reflexivity].
Qed.

Definition ops : list string := ["+"; "-"; "*"; "/"; "%"; "<<"; ">>"; "<"; ">"; "<="; ">="; "=="; "!="; "^"; "!"]%string.
Definition op_name (o : text) : option string := List.find (fun s => text_eqb (u s) o) ops.
Lemma op_name_eq : forall o s, op_name o = Some s -> o = u s.
Proof. intros o s E. unfold op_name in E. apply List.find_some in E as (_ & E). apply text_eqb_eq in E. now subst. Qed.

Definition find_def (f : text) : option (cty * list (cty * text) * list cstmt) :=
  match List.find (fun d => match d with FFunc _ _ g _ _ => text_eqb g f | _ => false end) ds with
  | Some (FFunc _ t _ ps b) => Some (t, ps, b)
  | _ => None
  end.
Lemma find_def_some : forall f t ps b, find_def f = Some (t, ps, b) -> defined ds f t ps b.
Proof.
  intros f t ps b E. unfold find_def in E. destruct (List.find _ _) as [[ | |s t0 g ps0 b0]|] eqn:F; try discriminate E. injection E as <- <- <-.
  apply List.find_some in F as (IN & EQ). apply text_eqb_eq in EQ. subst. now exists s.
Qed.
Lemma find_def_none : forall f t ps b, find_def f = None -> ~ defined ds f t ps b.
Proof.
  intros f t ps b E (s & IN). unfold find_def in E. destruct (List.find _ _) as [d|] eqn:F.
  - apply List.find_some in F as (I2 & EQ). destruct d; discriminate.
  - pose proof (List.find_none _ _ F _ IN) as X. cbn in X. assert (text_eqb f f = true) by now apply text_eqb_eq. congruence.
Qed.
Definition find_proto (f : text) : option (cty * list (cty * text) * text) :=
  match find_def f, List.find (fun d => match d with FProto false _ g _ _ => text_eqb g f | _ => false end) ds with
  | None, Some (FProto false t g ps l) => Some (t, ps, match l with Some l => l | None => f end)
  | _, _ => None
  end.
Lemma find_proto_some : forall f t ps l, find_proto f = Some (t, ps, l) -> elsewhere ds f t ps l.
Proof.
  intros f t ps l E. unfold find_proto in E. destruct (find_def f) as [[[? ?] ?]|] eqn:D; [discriminate E|]. destruct (List.find _ _) as [[ |[] t0 g ps0 l0| ]|] eqn:F; try discriminate E.
  injection E as <- <- <-. apply List.find_some in F as (IN & EQ). apply text_eqb_eq in EQ. subst g. exists l0. split; [exact IN|]. split; [reflexivity|]. intros t' ps' b. now apply find_def_none.
Qed.
Definition find_helper (f : text) : option helper := List.find (fun h => text_eqb (helper_name h) f) hs.
Definition is_void (t : cty) : bool := match t with TyVoid => true | _ => false end.
Definition eq_vald (a b : cval) : bool := match a, b with VD _ _, VD _ _ => false | VV _, VV _ => true | _, _ => val_eqb a b end.
Lemma eq_vald_eq : forall a b, eq_vald a b = true -> a = b.
Proof.
  intros [t z|f|s| |] [t2 z2|f2|s2| |] V; try discriminate V; cbn in V; try reflexivity.
  - apply andb_true_iff in V as (A & B). apply ctype_eqb_eq in A. apply Z.eqb_eq in B. now subst.
  - apply text_eqb_eq in V. now subst.
Qed.
Definition outside_ok (t : cty) (v : cval) : bool := if is_void t then eq_vald v (VV H) else match convert H t v with Some w => eq_vald w v | None => false end.

Fixpoint cev (n : nat) (c : cstate) (e : cexp) {struct n} : option (cval * cstate) :=
  match n with
  | O => None
  | S n =>
      match e with
      | CId x => match find H c x with Some k => Some (k_val H k, c) | None => None end
      | CNum s => match number_value H M s with Some v => Some (v, c) | None => None end
      | CStr s => Some (VS H s, c)
      | CUn o e =>
          match op_name o, cev n c e with
          | Some s, Some (v, c1) => match c_unary_value H s v with Some w => Some (w, c1) | None => None end
          | _, _ => None
          end
      | CBin o a b =>
          match cev n c a with
          | None => None
          | Some (x, c1) =>
              if text_eqb o (u "&&") then
                match truth H x with
                | Some false => Some (truth_value H false, c1)
                | Some true => match cev n c1 b with Some (y, c2) => match truth H y with Some t => Some (truth_value H t, c2) | None => None end | None => None end
                | None => None
                end
              else if text_eqb o (u "||") then
                match truth H x with
                | Some true => Some (truth_value H true, c1)
                | Some false => match cev n c1 b with Some (y, c2) => match truth H y with Some t => Some (truth_value H t, c2) | None => None end | None => None end
                | None => None
                end
              else
                match op_name o, cev n c1 b with
                | Some s, Some (y, c2) =>
                    if any_orderb c c2 [a; b] then match c_binary_value H s x y with Some v => Some (v, c2) | None => None end else None
                | _, _ => None
                end
          end
      | CCall (CId f) es =>
          match cevs n c es with
          | None => None
          | Some (vs, c1) =>
              if any_orderb c c1 es then
                match in_frames H (c_frames H c) f with
                | Some _ => None
                | None =>
                    match find_helper f with
                    | Some h => match helper_value H h vs with Some v => Some (v, c1) | None => None end
                    | None =>
                        match find_def f with
                        | Some (t, ps, b) =>
                            match arguments H ps vs with
                            | Some fr =>
                                match cex n (enter_function H c1 fr) b with
                                | Some (o, c2) => match call_value H t o with Some v => Some (v, leave_function H c1 c2) | None => None end
                                | None => None
                                end
                            | None => None
                            end
                        | None =>
                            match find_proto f with
                            | Some (t, ps, l) =>
                                match converted H (map fst ps) vs with
                                | Some ws =>
                                    match m_link H M l ws (c_out H c1) with
                                    | Some (v, o) => if outside_ok t v then Some (v, mkcstate H (c_glob H c1) (c_frames H c1) o) else None
                                    | None => None
                                    end
                                | None => None
                                end
                            | None => None
                            end
                        end
                    end
                end
              else None
          end
      | _ => None
      end
  end
with cevs (n : nat) (c : cstate) (es : list cexp) {struct n} : option (list cval * cstate) :=
  match n with
  | O => None
  | S n =>
      match es with
      | [] => Some ([], c)
      | e :: es =>
          match cev n c e with
          | Some (v, c1) => match cevs n c1 es with Some (vs, c2) => Some (v :: vs, c2) | None => None end
          | None => None
          end
      end
  end
with cex (n : nat) (c : cstate) (b : list cstmt) {struct n} : option (coutcome * cstate) :=
  match n with
  | O => None
  | S n =>
      match b with
      | [] => Some (CNormal H, c)
      | CDecl q t x e :: r =>
          if existsb (text_eqb x) (reading e) then None else
          match cev n c e with
          | Some (v, c1) =>
              if match c_frames H c1 with f :: _ => match in_frame H f x with Some _ => true | None => false end | [] => false end then None else
              match convert H t v with Some w => cex n (add_cell H c1 x (mkcell H q t w)) r | None => None end
          | None => None
          end
      | CAssign x e :: r =>
          match cev n c e with
          | Some (v, c1) =>
              match find H c1 x with
              | Some k => if k_const H k then None else match convert H (k_type H k) v with Some w => cex n (store H c1 x w) r | None => None end
              | None => None
              end
          | None => None
          end
      | (CExpr e | CVoid e) :: r => match cev n c e with Some (_, c1) => cex n c1 r | None => None end
      | CIf e b x :: r =>
          match cev n c e with
          | Some (v, c1) =>
              match truth H v with
              | Some true => match cex n (enter_block H c1) b with Some (o, c2) => caf n (leave_block H c2) o r | None => None end
              | Some false => match x with None => cex n c1 r | Some s => cex n c1 (s :: r) end
              | None => None
              end
          | None => None
          end
      | CWhile e b :: r =>
          match cev n c e with
          | Some (v, c1) =>
              match truth H v with
              | Some false => cex n c1 r
              | Some true =>
                  match cex n (enter_block H c1) b with
                  | Some ((CNormal _ | CContinued _), c2) => cex n (leave_block H c2) (CWhile e b :: r)
                  | Some (CBroken _, c2) => cex n (leave_block H c2) r
                  | Some (CReturned _ w, c2) => Some (CReturned H w, leave_block H c2)
                  | None => None
                  end
              | None => None
              end
          | None => None
          end
      | CReturn None :: r => Some (CReturned H None, c)
      | CReturn (Some e) :: r => match cev n c e with Some (v, c1) => Some (CReturned H (Some v), c1) | None => None end
      | CBreak :: r => Some (CBroken H, c)
      | CContinue :: r => Some (CContinued H, c)
      | CBlock b :: r => match cex n (enter_block H c) b with Some (o, c1) => caf n (leave_block H c1) o r | None => None end
      end
  end
with caf (n : nat) (c : cstate) (o : coutcome) (r : list cstmt) {struct n} : option (coutcome * cstate) :=
  match n with
  | O => None
  | S n => match o with CNormal _ => cex n c r | o => Some (o, c) end
  end.

Ltac get E := match type of E with match ?x with _ => _ end = _ => destruct x eqn:?; try discriminate E end.
Lemma cev_sound : forall n,
  (forall c e v c', cev n c e = Some (v, c') -> ceval c e v c') /\ (forall c es vs c', cevs n c es = Some (vs, c') -> cevals c es vs c') /\
  (forall c b o c', cex n c b = Some (o, c') -> cexec c b o c') /\ (forall c o r o' c', caf n c o r = Some (o', c') -> cafter c o r o' c').
Proof.
  induction n as [|n (I1 & I2 & I3 & I4)]; [repeat split; discriminate|]. split; [|split; [|split]].
  - intros c e v c' E. cbn [cev] in E. destruct e as [x|s|s|f es|o e|o a b].
    + get E. injection E as <- <-. now apply cv_id.
    + get E. injection E as <- <-. now apply cv_num.
    + injection E as <- <-. apply cv_str.
    + destruct f as [f| | | | | ]; try discriminate E. destruct (cevs n c es) as [(vs, c1)|] eqn:A; [|discriminate E]. destruct (any_orderb c c1 es) eqn:O; [|discriminate E].
      apply any_orderb_sound in O. apply I2 in A. destruct (in_frames H (c_frames H c) f) eqn:F; [discriminate E|]. destruct (find_helper f) as [h|] eqn:FH.
      * unfold find_helper in FH. apply List.find_some in FH as (IN & EQ). apply text_eqb_eq in EQ. subst f. destruct (helper_value H h vs) eqn:HV; [|discriminate E]. injection E as <- <-.
        now apply cv_helper with vs.
      * destruct (find_def f) as [((t, ps), b)|] eqn:FD.
        -- apply find_def_some in FD. destruct (arguments H ps vs) as [fr|] eqn:AR; [|discriminate E]. destruct (cex n (enter_function H c1 fr) b) as [(o, c2)|] eqn:X; [|discriminate E].
           destruct (call_value H t o) eqn:CV; [|discriminate E]. injection E as <- <-. apply I3 in X. now apply cv_call with t ps b vs fr o.
        -- destruct (find_proto f) as [((t, ps), l)|] eqn:FP; [|discriminate E]. apply find_proto_some in FP. destruct (converted H (map fst ps) vs) as [ws|] eqn:CV; [|discriminate E].
           destruct (m_link H M l ws (c_out H c1)) as [(w, o)|] eqn:ML; [|discriminate E]. destruct (outside_ok t w) eqn:OK; [|discriminate E]. injection E as <- <-.
           apply cv_outside with t ps l vs ws; auto. unfold outside_ok, is_void in OK. destruct t; try (now apply eq_vald_eq in OK);
             (destruct (convert H _ w) as [w0|] eqn:C0; [|discriminate OK]; apply eq_vald_eq in OK; now subst).
    + destruct (op_name o) as [s|] eqn:ON; [|discriminate E]. apply op_name_eq in ON. subst o. destruct (cev n c e) as [(v0, c1)|] eqn:A; [|discriminate E]. destruct (c_unary_value H s v0) eqn:U; [|discriminate E].
      injection E as <- <-. apply I1 in A. now apply cv_un with v0.
    + destruct (cev n c a) as [(x, c1)|] eqn:A; [|discriminate E]. apply I1 in A. destruct (text_eqb o (u "&&")) eqn:O1; [|destruct (text_eqb o (u "||")) eqn:O2].
      * apply text_eqb_eq in O1. subst o. destruct (truth H x) as [[]|] eqn:T; try discriminate E.
        -- destruct (cev n c1 b) as [(y, c2)|] eqn:B; [|discriminate E]. destruct (truth H y) eqn:T2; [|discriminate E]. injection E as <- <-. apply I1 in B. now apply cv_and_true with c1 x y.
        -- injection E as <- <-. now apply cv_and_false with x.
      * apply text_eqb_eq in O2. subst o. destruct (truth H x) as [[]|] eqn:T; try discriminate E.
        -- injection E as <- <-. now apply cv_or_true with x.
        -- destruct (cev n c1 b) as [(y, c2)|] eqn:B; [|discriminate E]. destruct (truth H y) eqn:T2; [|discriminate E]. injection E as <- <-. apply I1 in B. now apply cv_or_false with c1 x y.
      * destruct (op_name o) as [s|] eqn:ON; [|discriminate E]. apply op_name_eq in ON. subst o. destruct (cev n c1 b) as [(y, c2)|] eqn:B; [|discriminate E]. destruct (any_orderb c c2 [a; b]) eqn:O; [|discriminate E].
        destruct (c_binary_value H s x y) eqn:V; [|discriminate E]. injection E as <- <-. apply any_orderb_sound in O. apply I1 in B. now apply cv_bin with c1 x y.
  - intros c es vs c' E. cbn [cevs] in E. destruct es as [|e es]; [injection E as <- <-; constructor|]. destruct (cev n c e) as [(v, c1)|] eqn:A; [|discriminate E].
    destruct (cevs n c1 es) as [(vs0, c2)|] eqn:B; [|discriminate E]. injection E as <- <-. apply cvs_cons with c1; auto.
  - intros c b o c' E. cbn [cex] in E. destruct b as [|s r]; [injection E as <- <-; constructor|]. destruct s as [q t x e|x e|e|e|e b x|e b|[e|]| | |b].
    + destruct (existsb (text_eqb x) (reading e)) eqn:R; [discriminate E|]. destruct (cev n c e) as [(v, c1)|] eqn:A; [|discriminate E].
      destruct (match c_frames H c1 with f :: _ => match in_frame H f x with Some _ => true | None => false end | [] => false end) eqn:DH; [discriminate E|].
      destruct (convert H t v) as [w|] eqn:CV; [|discriminate E]. apply cx_decl with c1 v w; auto.
      * intro IN. assert (X : existsb (text_eqb x) (reading e) = true) by (apply existsb_exists; exists x; split; [exact IN|now apply text_eqb_eq]). congruence.
      * intros (f & fs & EF & NF). rewrite EF in DH. destruct (in_frame H f x); [discriminate DH|]. now apply NF.
    + destruct (cev n c e) as [(v, c1)|] eqn:A; [|discriminate E]. destruct (find H c1 x) as [k|] eqn:F; [|discriminate E]. destruct (k_const H k) eqn:K; [discriminate E|].
      destruct (convert H (k_type H k) v) as [w|] eqn:CV; [|discriminate E]. apply cx_assign with c1 k v w; auto.
    + destruct (cev n c e) as [(v, c1)|] eqn:A; [|discriminate E]. apply cx_expr with c1 v; auto.
    + destruct (cev n c e) as [(v, c1)|] eqn:A; [|discriminate E]. apply cx_void with c1 v; auto.
    + destruct (cev n c e) as [(v, c1)|] eqn:A; [|discriminate E]. destruct (truth H v) as [[]|] eqn:T; try discriminate E.
      * destruct (cex n (enter_block H c1) b) as [(o1, c2)|] eqn:B; [|discriminate E]. apply cx_then with c1 c2 v o1; auto.
      * destruct x as [s|]; [apply cx_else with c1 v|apply cx_skip with c1 v]; auto.
    + destruct (cev n c e) as [(v, c1)|] eqn:A; [|discriminate E]. destruct (truth H v) as [[]|] eqn:T; try discriminate E.
      * destruct (cex n (enter_block H c1) b) as [(o1, c2)|] eqn:B; [|discriminate E]. destruct o1 as [| | |w].
        -- apply cx_again with c1 c2 v (CNormal H); auto.
        -- apply cx_quit with c1 c2 v; auto.
        -- apply cx_again with c1 c2 v (CContinued H); auto.
        -- injection E as <- <-. apply cx_inside with c1 v; auto.
      * apply cx_stop with c1 v; auto.
    + destruct (cev n c e) as [(v, c1)|] eqn:A; [|discriminate E]. injection E as <- <-. apply cx_result; auto.
    + injection E as <- <-. constructor.
    + injection E as <- <-. constructor.
    + injection E as <- <-. constructor.
    + destruct (cex n (enter_block H c) b) as [(o1, c1)|] eqn:B; [|discriminate E]. apply cx_block with c1 o1; auto.
  - intros c o r o' c' E. cbn [caf] in E. destruct o as [| | |w]; try (injection E as <- <-; apply ca_jump; discriminate). apply ca_normal. auto.
Qed.

(** * Programs *)
Fixpoint cglobals (n : nat) (o : h_out H) (l : list cdef) : option (text -> option (cell H)) :=
  match l with
  | [] => Some (fun _ => None)
  | FVar s q t x _ i :: r =>
      match cglobals n o r with
      | None => None
      | Some g =>
          match
            match i with
            | None => zero H t
            | Some e => if constant e then match cev n (mkcstate H (fun _ => None) [] o) e with Some (w, _) => convert H t w | None => None end else None
            end
          with Some v => Some (put_cell H g x (mkcell H q t v)) | None => None end
      end
  | _ :: r => cglobals n o r
  end.
Lemma constant_keeps : forall e c v c', constant e = true -> ceval c e v c' -> c' = c.
Proof.
  induction e; intros c v0 c' K E; cbn [constant] in K; try discriminate K; inversion E; subst; try reflexivity; try (apply andb_true_iff in K as (K1 & K2)); eauto; repeat match goal with
    | X : ceval ?c ?e ?v ?c', IH : forall c v c', constant ?e = true -> ceval c ?e v c' -> c' = c |- _ => apply IH in X; [|assumption] end; subst; reflexivity.
Qed.
Lemma cglobals_sound : forall n o l g, cglobals n o l = Some g -> globals H M hs ds o l g.
Proof.
  intros n o. induction l as [|d l IH]; intros g E; [injection E as <-; constructor|]. destruct d as [s q t x lb i|s t f ps lb|s t f ps b].
  - cbn [cglobals] in E. destruct (cglobals n o l) as [g0|]; [|discriminate E].
    destruct (match i with None => zero H t | Some e => if constant e then match cev n (mkcstate H (fun _ => None) [] o) e with Some (w, _) => convert H t w | None => None end else None end) as [v|] eqn:V; [|discriminate E].
    injection E as <-. apply gl_var; [now apply IH|]. unfold first_value. destruct i as [e|]; [|exact V]. destruct (constant e) eqn:K; [|discriminate V]. split; [reflexivity|].
    destruct (cev n (mkcstate H (fun _ => None) [] o) e) as [(w, c')|] eqn:X; [|discriminate V]. exists w. split; [|exact V]. apply (proj1 (cev_sound n)) in X.
    pose proof (constant_keeps _ _ _ _ K X) as EQ. now subst c'.
  - apply gl_other; [discriminate|now apply IH].
  - apply gl_other; [discriminate|now apply IH].
Qed.
Definition crun (n : nat) (o : h_out H) : option (Z * h_out H) :=
  match cglobals n o ds with
  | Some g =>
      match cev n (mkcstate H g [] o) (CCall (CId (u "main")) []) with
      | Some (VI _ CInt code, c') => Some (code, c_out H c')
      | _ => None
      end
  | None => None
  end.

(** Distinct names. *)
Fixpoint nodupb (l : list text) : bool := match l with [] => true | x :: l => negb (existsb (text_eqb x) l) && nodupb l end.
Lemma nodupb_nodup : forall l, nodupb l = true -> NoDup l.
Proof.
  induction l as [|x l IH]; intro E; [constructor|]. cbn [nodupb] in E. apply andb_true_iff in E as (A & B). constructor; [|now apply IH]. intro I.
  assert (X : existsb (text_eqb x) l = true) by (apply existsb_exists; exists x; split; [exact I|now apply text_eqb_eq]). rewrite X in A. discriminate A.
Qed.
Definition inb (x : text) (l : list text) : bool := existsb (text_eqb x) l.
Lemma inb_false : forall x l, inb x l = false -> ~ In x l.
Proof. intros x l E I. assert (X : inb x l = true) by (apply existsb_exists; exists x; split; [exact I|now apply text_eqb_eq]). congruence. Qed.
Definition ctys_eqb (a b : list cty) : bool := Nat.eqb (List.length a) (List.length b) && forallb (fun p => cty_eqb (fst p) (snd p)) (combine a b).
Lemma ctys_eqb_eq : forall a b, ctys_eqb a b = true -> a = b.
Proof.
  induction a as [|x a IH]; intros [|y b] E; try discriminate E; [reflexivity|]. unfold ctys_eqb in E. cbn [List.length Nat.eqb combine forallb fst snd] in E.
  apply andb_true_iff in E as (L & E). apply andb_true_iff in E as (E1 & E2). apply cty_eqb_eq in E1. subst y. f_equal. apply IH. unfold ctys_eqb. now rewrite L, E2.
Qed.
Definition label_eqb (a b : option text) : bool := match a, b with None, None => true | Some a, Some b => text_eqb a b | _, _ => false end.
Definition agreeingb (t : cty) (f : text) (ps : list (cty * text)) (l : option text) (d : cdef) : bool :=
  match d with
  | FProto _ t' f' ps' l' => negb (text_eqb f' f) || (cty_eqb t' t && ctys_eqb (map fst ps') (map fst ps) && label_eqb l' l)
  | FFunc _ t' f' ps' _ => negb (text_eqb f' f) || (cty_eqb t' t && ctys_eqb (map fst ps') (map fst ps))
  | FVar _ _ _ _ _ _ => true
  end.
Lemma agreeingb_sound : forall t f ps l d, agreeingb t f ps l d = true -> agreeing t f ps l d.
Proof.
  intros t f ps l [s q t' x lb i|s t' f' ps' l'|s t' f' ps' b] E; cbn [agreeingb agreeing] in *; [exact I| |]; intros ->; rewrite (proj2 (text_eqb_eq f f) eq_refl) in E; cbn [negb orb] in E.
  - apply andb_true_iff in E as (E & C). apply andb_true_iff in E as (A & B). split; [now apply cty_eqb_eq|]. split; [now apply ctys_eqb_eq|].
    destruct l' as [l'|], l as [l|]; try discriminate C; [|reflexivity]. apply text_eqb_eq in C. now subst.
  - apply andb_true_iff in E as (A & B). split; [now apply cty_eqb_eq|now apply ctys_eqb_eq].
Qed.
Definition var_name (d : cdef) : list text := match d with FVar _ _ _ x _ _ => [x] | _ => [] end.
Definition distinctb : bool :=
  nodupb (map helper_name hs ++ flat_map defined_names ds) &&
  forallb (fun p => match p with FProto _ t f ps l => forallb (agreeingb t f ps l) ds | _ => true end) ds &&
  forallb (fun x => negb (inb x (m_headers H M))) (flat_map defined_names ds) &&
  forallb (fun p => match p with FProto _ _ f _ _ => negb (inb f (flat_map var_name ds)) && negb (inb f (map helper_name hs)) && negb (inb f (m_headers H M)) | _ => true end) ds.
Lemma distinctb_sound : distinctb = true -> distinct_names H M hs ds.
Proof.
  intro E. unfold distinctb in E. apply andb_true_iff in E as (E & E4). apply andb_true_iff in E as (E & E3). apply andb_true_iff in E as (E1 & E2).
  rewrite forallb_forall in E2, E3, E4. split; [now apply nodupb_nodup|]. split; [|split].
  - intros s t f ps l d I1 I2. specialize (E2 _ I1). cbn in E2. rewrite forallb_forall in E2. now apply agreeingb_sound, E2.
  - intros d x I1 I2. apply inb_false. specialize (E3 x (proj2 (in_flat_map _ _ _) (ex_intro _ d (conj I1 I2)))). now destruct (inb x (m_headers H M)).
  - intros s t f ps l s' q t' l' i I1. specialize (E4 _ I1). cbn in E4. apply andb_true_iff in E4 as (E4 & C). apply andb_true_iff in E4 as (A & B). apply negb_true_iff in A, B, C.
    apply inb_false in A, B, C. split; [|split; assumption]. intro I2. apply A, in_flat_map. exists (FVar s' q t' f l' i). split; [exact I2|now left].
Qed.
Lemma crun_sound : forall n o code o', distinctb = true -> crun n o = Some (code, o') -> c_exits H M hs ds o code o'.
Proof.
  intros n o code o' D E. unfold crun in E. destruct (cglobals n o ds) as [g|] eqn:G; [|discriminate E]. destruct (cev n _ _) as [([[]| | | |], c')|] eqn:X; try discriminate E. injection E as <- <-.
  split; [now apply distinctb_sound|]. exists g, c'. split; [now apply cglobals_sound in G|]. split; [|reflexivity]. exact (proj1 (cev_sound n) _ _ _ _ X).
Qed.
End Exec.
