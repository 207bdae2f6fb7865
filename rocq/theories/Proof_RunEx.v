(** Ways to run given programs: interpreters for Spec_Run.v and Spec_IR.v. *)
From Coq Require Import List Arith NArith ZArith Bool Lia.
From Verif Require Import Base Model_Literal Model_Parse Model_Sem Spec_Run Model_Helpers Spec_IR.
Import ListNotations.
Open Scope list_scope.
Open Scope nat_scope.

Section Run.
Variable H : host.
Variable ys : list symbol.
Local Notation val := (sv (h_float H)).
Variable ok1 : unop -> val -> Prop.
Variable ok2 : binop -> val -> val -> Prop.
Variable b1 : unop -> val -> bool.
Variable b2 : binop -> val -> val -> bool.
Local Notation rst := (rst H).
Local Notation outcome := (outcome H).

Definition typed_value (v : val) (t : ty) (s : rst) : option (val * rst) := if of_type H v t then Some (v, s) else None.

Fixpoint ev (f : nat) (s : rst) (x : texpr) {struct f} : option (val * rst) :=
  match f with
  | O => None
  | S f =>
      match x with
      | XVar _ k ty _ => match read H s k with Some v => typed_value v ty s | None => None end
      | XConst _ v ty => typed_value (literal_of H v) ty s
      | XUn o x _ _ =>
          match ev f s x with
          | Some (v, s1) => if b1 o v then match unary H o v with Some v' => Some (v', s1) | None => None end else None
          | None => None
          end
      | XBin o x y _ _ =>
          match ev f s x with
          | Some (a, s1) =>
              match ev f s1 y with
              | Some (b, s2) => if b2 o a b then match binary H o a b with Some v => Some (v, s2) | None => None end else None
              | None => None
              end
          | None => None
          end
      | XCall _ k args ty =>
          match evs f s args with
          | Some (vs, s1) =>
              if is_external ys k then
                match h_call H k vs (r_out H s1) with Some (v, o) => typed_value v ty (set_out H s1 o) | None => None end
              else
                match lookup (r_funs H s1) k with
                | Some (ps, body) =>
                    if Nat.eqb (List.length ps) (List.length vs) then
                      match ex f (enter_call H s1 ps vs) body with
                      | Some (o, s2) => match returned H o with Some v => typed_value v ty (leave_call H s1 s2) | None => None end
                      | None => None
                      end
                    else None
                | None => None
                end
          | None => None
          end
      end
  end
with evs (f : nat) (s : rst) (l : list texpr) {struct f} : option (list val * rst) :=
  match f with
  | O => None
  | S f =>
      match l with
      | [] => Some ([], s)
      | x :: l =>
          match ev f s x with
          | Some (v, s1) => match evs f s1 l with Some (vs, s2) => Some (v :: vs, s2) | None => None end
          | None => None
          end
      end
  end
with ex (f : nat) (s : rst) (l : list tnode) {struct f} : option (outcome * rst) :=
  match f with
  | O => None
  | S f =>
      match l with
      | [] => Some (ONormal, s)
      | n :: r =>
          match tn_type n, tn_pay n with
          | (N_COMMENT | N_NOOP | N_IMPORT), _ | N_VAR_DEF, XAlias => ex f s r
          | N_VAR_DEF, XDef k e => match ev f s e with Some (v, s1) => ex f (define H s1 k v) r | None => None end
          | N_VAR_ASSIGN, XSet k e =>
              match ev f s e with
              | Some (v, s1) => match assign H s1 k v with Some s2 => ex f s2 r | None => None end
              | None => None
              end
          | N_EXPR, XExpr e => match ev f s e with Some (v, s1) => ex f s1 r | None => None end
          | N_RETURN, XExpr e => match ev f s e with Some (v, s1) => Some (OReturn (Some v), s1) | None => None end
          | N_RETURN, XNone => Some (OReturn None, s)
          | N_BREAK, _ => Some (OBreak, s)
          | N_CONTINUE, _ => Some (OContinue, s)
          | N_IF, _ => br f s n r
          | N_WHILE, XExpr e =>
              match ev f s e with
              | Some (SvBool false, s1) => ex f s1 r
              | Some (SvBool true, s1) =>
                  match ex f s1 (tn_child n) with
                  | Some (ONormal, s2) | Some (OContinue, s2) => ex f (close H s1 s2) (n :: r)
                  | Some (OBreak, s2) => ex f (close H s1 s2) r
                  | Some (OReturn v, s2) => Some (OReturn v, close H s1 s2)
                  | None => None
                  end
              | _ => None
              end
          | N_NAMESPACE, _ =>
              match ex f s (tn_child n) with
              | Some (o1, s1) => af f s1 o1 r
              | None => None
              end
          | N_FUNCTION_PROTO, XProto k ps =>
              if is_external ys k then ex f s r else ex f (declare H s k ps (tn_child n)) r
          | _, _ => None
          end
      end
  end
with br (f : nat) (s : rst) (n : tnode) (r : list tnode) {struct f} : option (outcome * rst) :=
  match f with
  | O => None
  | S f =>
      match tn_pay n with
      | XExpr e =>
          match ev f s e with
          | Some (SvBool true, s1) =>
              match ex f s1 (tn_child n) with
              | Some (o1, s2) => af f (close H s1 s2) o1 (behind r)
              | None => None
              end
          | Some (SvBool false, s1) => ot f s1 r
          | _ => None
          end
      | _ => None
      end
  end
with ot (f : nat) (s : rst) (r : list tnode) {struct f} : option (outcome * rst) :=
  match f with
  | O => None
  | S f =>
      match r with
      | n :: r' =>
          match tn_type n with
          | N_COMMENT => ot f s r'
          | N_ELIF => br f s n r'
          | N_ELSE => match ex f s (tn_child n) with Some (o1, s1) => af f (close H s s1) o1 r' | None => None end
          | _ => ex f s r
          end
      | [] => ex f s []
      end
  end
with af (f : nat) (s : rst) (o : outcome) (r : list tnode) {struct f} : option (outcome * rst) :=
  match f with
  | O => None
  | S f => match o with ONormal => ex f s r | _ => Some (o, s) end
  end.

Hypothesis B1 : forall o v, b1 o v = true -> ok1 o v.
Hypothesis B2 : forall o v w, b2 o v w = true -> ok2 o v w.
Local Notation eval := (eval H ys ok1 ok2).
Local Notation evals := (evals H ys ok1 ok2).
Local Notation exec := (exec H ys ok1 ok2).
Local Notation branch := (branch H ys ok1 ok2).
Local Notation otherwise := (otherwise H ys ok1 ok2).
Local Notation after := (after H ys ok1 ok2).

Lemma typed_some : forall v t s v' s', typed_value v t s = Some (v', s') -> of_type H v t = true /\ v' = v /\ s' = s.
Proof. intros v t s v' s' E. unfold typed_value in E. destruct (of_type H v t); [|discriminate E]. now inversion E. Qed.

Lemma ev_sound : forall f,
  (forall s x v s', ev f s x = Some (v, s') -> eval s x v s') /\
  (forall s l vs s', evs f s l = Some (vs, s') -> evals s l vs s') /\
  (forall s l o s', ex f s l = Some (o, s') -> exec s l o s') /\
  (forall s n r o s', br f s n r = Some (o, s') -> branch s n r o s') /\
  (forall s r o s', ot f s r = Some (o, s') -> otherwise s r o s') /\
  (forall s o1 r o s', af f s o1 r = Some (o, s') -> after s o1 r o s').
Proof.
  induction f as [|f (I1 & I2 & I3 & I4 & I5 & I6)]; [repeat split; intros; discriminate|].
  refine (conj _ (conj _ (conj _ (conj _ (conj _ _))))).
  - intros s x v s' E. cbn [ev] in E. destruct x as [t k ty c|t w ty|t k args ty|o x ty c|o x y ty c].
    + destruct (read H s k) as [w|] eqn:R; [|discriminate E]. apply typed_some in E as (T & -> & ->). now constructor.
    + apply typed_some in E as (T & -> & ->). now constructor.
    + destruct (evs f s args) as [(vs, s1)|] eqn:EA; [|discriminate E]. apply I2 in EA. destruct (is_external ys k) eqn:X.
      * destruct (h_call H k vs (r_out H s1)) as [(w, o)|] eqn:C; [|discriminate E]. apply typed_some in E as (T & -> & ->). eapply ev_external; eauto.
      * destruct (lookup (r_funs H s1) k) as [(ps, body)|] eqn:L; [|discriminate E]. destruct (List.length ps =? List.length vs) eqn:LE; [|discriminate E].
        apply Nat.eqb_eq in LE. destruct (ex f (enter_call H s1 ps vs) body) as [(o, s2)|] eqn:EB; [|discriminate E]. apply I3 in EB.
        destruct (returned H o) as [w|] eqn:RT; [|discriminate E]. apply typed_some in E as (T & -> & ->). eapply ev_call; eauto.
    + destruct (ev f s x) as [(w, s1)|] eqn:EX; [|discriminate E]. apply I1 in EX. destruct (b1 o w) eqn:OB; [|discriminate E].
      destruct (unary H o w) as [w'|] eqn:U; [|discriminate E]. inversion E; subst. eapply ev_un; eauto.
    + destruct (ev f s x) as [(w, s1)|] eqn:EX; [|discriminate E]. apply I1 in EX. destruct (ev f s1 y) as [(w2, s2)|] eqn:EY; [|discriminate E]. apply I1 in EY.
      destruct (b2 o w w2) eqn:OB; [|discriminate E]. destruct (binary H o w w2) as [w'|] eqn:U; [|discriminate E]. inversion E; subst. eapply ev_bin; eauto.
  - intros s l vs s' E. cbn [evs] in E. destruct l as [|x l]; [inversion E; subst; constructor|].
    destruct (ev f s x) as [(w, s1)|] eqn:EX; [|discriminate E]. apply I1 in EX. destruct (evs f s1 l) as [(ws, s2)|] eqn:EL; [|discriminate E]. apply I2 in EL.
    inversion E; subst. econstructor; eauto.
  - intros s l o s' E. cbn [ex] in E. destruct l as [|n r]; [inversion E; subst; constructor|].
    destruct (tn_type n) eqn:TN; try discriminate E.
    + destruct (tn_pay n) eqn:TP; try discriminate E.
      * apply ex_skip; [right; auto|]. now apply I3.
      * destruct (ev f s e) as [(w, s1)|] eqn:EX; [|discriminate E]. apply I1 in EX. apply I3 in E. eapply ex_define; eauto.
    + destruct (tn_pay n) eqn:TP; try discriminate E. destruct (ev f s e) as [(w, s1)|] eqn:EX; [|discriminate E]. apply I1 in EX.
      destruct (assign H s1 sym w) as [s2|] eqn:EA; [|discriminate E]. apply I3 in E. eapply ex_assign; eauto.
    + destruct (tn_pay n) eqn:TP; try discriminate E. destruct (is_external ys sym) eqn:X; apply I3 in E; [eapply ex_external; eauto|eapply ex_function; eauto].
    + destruct (tn_pay n) eqn:TP; try discriminate E. destruct (ev f s e) as [(w, s1)|] eqn:EX; [|discriminate E]. apply I1 in EX. apply I3 in E. eapply ex_call; eauto.
    + destruct (tn_pay n) eqn:TP; try discriminate E; [inversion E; subst; now apply ex_leave|].
      destruct (ev f s e) as [(w, s1)|] eqn:EX; [|discriminate E]. apply I1 in EX. inversion E; subst. eapply ex_return; eauto.
    + apply ex_if; auto.
    + destruct (tn_pay n) eqn:TP; try discriminate E. destruct (ev f s e) as [([z|z|[|]|z|z|], s1)|] eqn:EX; try discriminate E; apply I1 in EX.
      * destruct (ex f s1 (tn_child n)) as [([| | |v], s2)|] eqn:EB; try discriminate E; apply I3 in EB.
        -- apply I3 in E. eapply ex_again; eauto.
        -- apply I3 in E. eapply ex_quit; eauto.
        -- apply I3 in E. eapply ex_again; eauto.
        -- inversion E; subst. eapply ex_return_inside; eauto.
      * apply I3 in E. eapply ex_stop; eauto.
    + apply ex_skip; [left; rewrite TN; cbn; auto|]. now apply I3.
    + destruct (ex f s (tn_child n)) as [(o1, s1)|] eqn:EB; [|discriminate E]. apply I3 in EB. apply I6 in E. eapply ex_space; eauto.
    + apply ex_skip; [left; rewrite TN; cbn; auto|]. now apply I3.
    + apply ex_skip; [left; rewrite TN; cbn; auto|]. now apply I3.
    + inversion E; subst. now apply ex_break.
    + inversion E; subst. now apply ex_continue.
  - intros s n r o s' E. cbn [br] in E. destruct (tn_pay n) eqn:TP; try discriminate E.
    destruct (ev f s e) as [([z|z|[|]|z|z|], s1)|] eqn:EX; try discriminate E; apply I1 in EX.
    + destruct (ex f s1 (tn_child n)) as [(o1, s2)|] eqn:EB; [|discriminate E]. apply I3 in EB. apply I6 in E. eapply br_true; eauto.
    + apply I5 in E. eapply br_false; eauto.
  - intros s r o s' E. cbn [ot] in E. destruct r as [|n r]; [apply ot_end; now apply I3|].
    destruct (tn_type n) eqn:TN; try (apply ot_end; now apply I3).
    + apply ot_elif; auto.
    + destruct (ex f s (tn_child n)) as [(o1, s1)|] eqn:EB; [|discriminate E]. apply I3 in EB. apply I6 in E. eapply ot_else; eauto.
    + apply ot_comment; auto.
  - intros s o1 r o s' E. cbn [af] in E. destruct o1; try (inversion E; subst; apply af_jump; discriminate). apply af_normal. now apply I3.
Qed.

Definition exit_code (o : outcome) : option Z :=
  match o with ONormal => Some 0%Z | OReturn (Some (SvInt z)) => Some z | _ => None end.
Lemma exits_of : forall f l o code o', match ex f (start H o) l with Some (out, s') => exit_code out = Some code /\ r_out H s' = o' | None => False end ->
  exits H ys ok1 ok2 l o code o'.
Proof.
  intros f l o code o' E. destruct (ex f (start H o) l) as [(out, s')|] eqn:EX; [|destruct E]. destruct E as (E1 & E2).
  exists out, s'. split; [now apply (proj1 (proj2 (proj2 (ev_sound f))))|]. split; [exact E2|].
  destruct out as [| | |[[z|z|z|z|z|]|]]; try discriminate E1; inversion E1; auto.
Qed.
End Run.

(** * Code *)

Section Code.
Variable H : host.
Variable M : module H.
Local Notation tv := (tv H).
Local Notation run := (run H M).

(** Code does one thing only. *)
Lemma run_one : forall args regs m out code x m1 o1, run args regs m out code x m1 o1 ->
  forall y m2 o2, run args regs m out code y m2 o2 -> y = x /\ m2 = m1 /\ o2 = o1.
Proof.
  intros args regs m out code x m1 o1 R. induction R; intros y0 m2 o2 Q; inversion Q; subst;
    repeat match goal with
    | A : ?t = Some _, B : ?t = Some _ |- _ => rewrite A in B; inversion B; clear B; subst
    | A : helper_value H (CSym _) _ = Some _ |- _ => discriminate A
    end; try (eapply IHR; eassumption); try (now repeat split).
  - match goal with B : run _ (fun _ => None) _ _ _ _ _ _ |- _ => destruct (IHR1 _ _ _ B) as (-> & -> & ->) end. apply IHR2. assumption.
Qed.

Lemma module_one : forall out code o code' o', module_exits H M out code o -> module_exits H M out code' o' -> code' = code /\ o' = o.
Proof.
  intros out code o code' o' (body & m & E & R) (body' & m' & E' & R'). rewrite E in E'. inversion E'; subst body'.
  destruct (run_one _ _ _ _ _ _ _ _ R _ _ _ R') as (A & _ & B). split; [now inversion A|exact B].
Qed.

Fixpoint ir (f : nat) (args : list tv) (regs : nat -> option tv) (m : mem H) (out : h_out H) (code : list (instr H)) {struct f}
    : option (option tv * mem H * h_out H) :=
  match f with
  | O => None
  | S f =>
      match code with
      | [] => None
      | ILoad r _ p :: code =>
          match operand_value H args regs p with
          | Some a => match load H m a with Some v => ir f args (set_reg H regs r v) m out code | None => None end
          | None => None
          end
      | IStore v p :: code =>
          match operand_value H args regs v, operand_value H args regs p with
          | Some b, Some a => match store H m a b with Some m1 => ir f args regs m1 out code | None => None end
          | _, _ => None
          end
      | IAlloca r _ :: code =>
          ir f args (set_reg H regs r (Addr (ACell (List.length (m_cells H m))))) (mkmem H (m_glob H m) (m_cells H m ++ [Poison])) out code
      | IBin r o a b :: code =>
          match operand_value H args regs a, operand_value H args regs b with
          | Some va, Some vb => match bin_value H o va vb with Some v => ir f args (set_reg H regs r v) m out code | None => None end
          | _, _ => None
          end
      | ICall r (CSym k) l :: code =>
          match all_values H args regs l, lookup (m_funs H M) k with
          | Some vs, Some (Some b) =>
              match nth_error (m_blocks H M) b with
              | Some body =>
                  match ir f vs (fun _ => None) m out body with
                  | Some (y, m1, out1) => ir f args (set_reg H regs r (match y with Some v => v | None => V SvVoid end)) m1 out1 code
                  | None => None
                  end
              | None => None
              end
          | Some vs, Some None =>
              match plain_values H vs with
              | Some ws => match h_call H k ws out with Some (v, out1) => ir f args (set_reg H regs r (V v)) m out1 code | None => None end
              | None => None
              end
          | _, _ => None
          end
      | ICall r c l :: code =>
          match all_values H args regs l with
          | Some vs => match helper_value H c vs with Some v => ir f args (set_reg H regs r v) m out code | None => None end
          | None => None
          end
      | IRet (Some o) :: _ => match operand_value H args regs o with Some v => Some (Some v, m, out) | None => None end
      | IRet None :: _ => Some (None, m, out)
      | IBr b :: _ => match nth_error (m_blocks H M) b with Some body => ir f args regs m out body | None => None end
      | ICondBr c yes no :: _ =>
          match operand_value H args regs c with
          | Some (V (SvBool t)) => match nth_error (m_blocks H M) (if t then yes else no) with Some body => ir f args regs m out body | None => None end
          | _ => None
          end
      | IUnreachable :: _ => None
      end
  end.

Lemma ir_sound : forall f args regs m out code x m' out', ir f args regs m out code = Some (x, m', out') -> run args regs m out code x m' out'.
Proof.
  induction f as [|f IH]; intros args regs m out code x m' out' E; [discriminate E|]. destruct code as [|i code]; [discriminate E|].
  cbn [ir] in E. destruct i as [r t p|v p|r t|r o a b|r c l|[o|]|b|c yes no|].
  - destruct (operand_value H args regs p) as [a|] eqn:E1; [|discriminate E]. destruct (load H m a) as [v|] eqn:E2; [|discriminate E]. eapply ru_load; eauto.
  - destruct (operand_value H args regs v) as [b|] eqn:E1; [|discriminate E]. destruct (operand_value H args regs p) as [a|] eqn:E2; [|discriminate E].
    destruct (store H m a b) as [m1|] eqn:E3; [|discriminate E]. eapply ru_store; eauto.
  - apply ru_alloca. auto.
  - destruct (operand_value H args regs a) as [va|] eqn:E1; [|discriminate E]. destruct (operand_value H args regs b) as [vb|] eqn:E2; [|discriminate E].
    destruct (bin_value H o va vb) as [v|] eqn:E3; [|discriminate E]. eapply ru_bin; eauto.
  - assert (HELP : match all_values H args regs l with
                   | Some vs => match helper_value H c vs with Some v => ir f args (set_reg H regs r v) m out code | None => None end
                   | None => None end = Some (x, m', out') -> run args regs m out (ICall r c l :: code) x m' out').
    { intro E0. destruct (all_values H args regs l) as [vs|] eqn:E1; [|discriminate E0]. destruct (helper_value H c vs) as [v|] eqn:E2; [|discriminate E0]. eapply ru_helper; eauto. }
    destruct c as [k| | |]; auto.
    destruct (all_values H args regs l) as [vs|] eqn:E1; [|discriminate E]. destruct (lookup (m_funs H M) k) as [[b|]|] eqn:E2; [| |discriminate E].
    + destruct (nth_error (m_blocks H M) b) as [body|] eqn:E3; [|discriminate E]. destruct (ir f vs (fun _ => None) m out body) as [((y, m1), out1)|] eqn:E4; [|discriminate E].
      eapply ru_call; eauto.
    + destruct (plain_values H vs) as [ws|] eqn:E3; [|discriminate E]. destruct (h_call H k ws out) as [(v, out1)|] eqn:E4; [|discriminate E]. eapply ru_external; eauto.
  - destruct (operand_value H args regs o) as [v|] eqn:E1; [|discriminate E]. inversion E; subst. now apply ru_ret.
  - inversion E; subst. apply ru_ret_void.
  - destruct (nth_error (m_blocks H M) b) as [body|] eqn:E1; [|discriminate E]. eapply ru_br; eauto.
  - destruct (operand_value H args regs c) as [[[z|z|t|z|z|]| | |]|] eqn:E1; try discriminate E.
    destruct (nth_error (m_blocks H M) (if t then yes else no)) as [body|] eqn:E2; [|discriminate E]. eapply ru_cond; eauto.
  - discriminate E.
Qed.

Definition main_result (f : nat) (out : h_out H) : option (option tv * h_out H) :=
  match nth_error (m_blocks H M) (m_main H M) with
  | Some body =>
      match ir f [] (fun _ => None) (mkmem H (fun n => nth n (m_init H M) Poison) []) out body with
      | Some (x, _, o) => Some (x, o)
      | None => None
      end
  | None => None
  end.
Lemma module_exits_of : forall f out code o, main_result f out = Some (Some (V (SvInt code)), o) -> module_exits H M out code o.
Proof.
  intros f out code o E. unfold main_result in E. destruct (nth_error (m_blocks H M) (m_main H M)) as [body|] eqn:E1; [|discriminate E].
  match type of E with context [ir ?a ?b ?c ?d ?e ?g] => destruct (ir a b c d e g) as [((x, m'), o')|] eqn:E2; [|discriminate E] end.
  inversion E; subst. exists body, m'. split; [exact E1|]. now apply ir_sound in E2.
Qed.
Lemma module_exits_not : forall f out x o code o', main_result f out = Some (x, o) -> x <> Some (V (SvInt code)) \/ o <> o' -> ~ module_exits H M out code o'.
Proof.
  intros f out x o code o' E D (body & m & EB & R). unfold main_result in E. rewrite EB in E.
  match type of E with context [ir ?a ?b ?c ?d ?e ?g] => destruct (ir a b c d e g) as [((y, m'), o1)|] eqn:E2; [|discriminate E] end.
  inversion E; subst. apply ir_sound in E2. destruct (run_one _ _ _ _ _ _ _ _ E2 _ _ _ R) as (A & _ & B). destruct D as [D|D]; congruence.
Qed.
End Code.

(** * References *)

From Verif Require Import Spec_Sem Spec_Sem2 Spec_LLVM Proof_SemEx Proof_Sem8.

Fixpoint tnodes (n : tnode) : list tnode := match n with mktnode _ _ _ c => n :: flat_map tnodes c end.
Lemma in_checked_tnodes : forall n l, in_checked n l -> In n (flat_map tnodes l).
Proof.
  intros n l C. induction C as [l IN|y l IN C IH]; apply in_flat_map.
  - exists n. split; [exact IN|]. destruct n. now left.
  - exists y. split; [exact IN|]. destruct y. right. exact IH.
Qed.
Lemma xpart_xparts : forall x e, xpart x e -> In x (xparts e).
Proof.
  intros x e P. induction P as [e|x name k args ty a IN P IH|x o a ty c P IH|x o a b ty c P IH|x o a b ty c P IH].
  - destruct e; now left.
  - right. apply in_flat_map. eauto.
  - now right.
  - right. apply in_or_app. now left.
  - right. apply in_or_app. now right.
Qed.
Definition no_referencesb (l : list tnode) : bool :=
  forallb (fun n => match checked_expr n with
    | Some e => forallb (fun p => match p with XUn (URef | UDeref) _ _ _ => false | _ => true end) (xparts e)
    | None => true end) (flat_map tnodes l).
Lemma no_references_of : forall l, no_referencesb l = true -> no_references l.
Proof.
  intros l E n o x t c C (e & CE & P). unfold no_referencesb in E. rewrite forallb_forall in E. apply in_checked_tnodes in C. apply E in C. rewrite CE in C.
  rewrite forallb_forall in C. apply xpart_xparts in P. apply C in P. destruct o; try discriminate P; split; discriminate.
Qed.
