(** Code that has no result: it runs into something undefined. *)
From Coq Require Import List Arith NArith ZArith Bool Lia.
From Verif Require Import Base Model_Sem Spec_Run Model_Helpers Spec_IR Proof_RunEx.
Import ListNotations.
Open Scope list_scope.
Open Scope nat_scope.

Section Stuck.
Variable H : host.
Variable M : module H.
Local Notation tv := (tv H).

(** True if the code is stuck after at most `f` steps. *)
Fixpoint stuck (f : nat) (args : list tv) (regs : nat -> option tv) (m : mem H) (out : h_out H) (code : list (instr H)) {struct f} : bool :=
  match f with
  | O => false
  | S f =>
      match code with
      | [] => true
      | ILoad r _ p :: code =>
          match operand_value H args regs p with
          | Some a => match load H m a with Some v => stuck f args (set_reg H regs r v) m out code | None => true end
          | None => true
          end
      | IStore v p :: code =>
          match operand_value H args regs v, operand_value H args regs p with
          | Some b, Some a => match store H m a b with Some m1 => stuck f args regs m1 out code | None => true end
          | _, _ => true
          end
      | IAlloca r _ :: code =>
          stuck f args (set_reg H regs r (Addr (ACell (List.length (m_cells H m))))) (mkmem H (m_glob H m) (m_cells H m ++ [Poison])) out code
      | IBin r o a b :: code =>
          match operand_value H args regs a, operand_value H args regs b with
          | Some va, Some vb => match bin_value H o va vb with Some v => stuck f args (set_reg H regs r v) m out code | None => true end
          | _, _ => true
          end
      | ICall r (CSym k) l :: code =>
          match all_values H args regs l, lookup (m_funs H M) k with
          | Some vs, Some (Some b) =>
              match nth_error (m_blocks H M) b with
              | Some body => stuck f vs (fun _ => None) m out body
              | None => true
              end
          | _, _ => false
          end
      | ICall _ CFloatPow _ :: _ => true
      | _ => false
      end
  end.

Lemma stuck_sound : forall f args regs m out code x m' out', stuck f args regs m out code = true -> ~ run H M args regs m out code x m' out'.
Proof.
  induction f as [|f IH]; intros args regs m out code x m' out' E R; [discriminate E|]. destruct code as [|i code]; [inversion R|].
  cbn [stuck] in E. destruct i as [r t p|v p|r t|r o a b|r c l|o|b|c yes no|]; try discriminate E.
  - inversion R as [? ? ? ? ? ? ? a v ? ? ? ? E1 E2 R1| | | | | | | | | |]; subst. rewrite E1, E2 in E. exact (IH _ _ _ _ _ _ _ _ E R1).
  - inversion R as [|? ? ? ? ? ? a b m1 ? ? ? ? E1 E2 E3 R1| | | | | | | | |]; subst. rewrite E1, E2, E3 in E. exact (IH _ _ _ _ _ _ _ _ E R1).
  - inversion R; subst. match goal with R1 : run _ _ _ _ _ _ code _ _ _ |- _ => exact (IH _ _ _ _ _ _ _ _ E R1) end.
  - inversion R as [| | |? ? ? ? ? ? ? ? va vb v ? ? ? ? E1 E2 E3 R1| | | | | | |]; subst. rewrite E1, E2, E3 in E. exact (IH _ _ _ _ _ _ _ _ E R1).
  - destruct c as [k| | |]; try discriminate E.
    2:{ inversion R; subst. match goal with A : helper_value _ CFloatPow ?l = Some _ |- _ => discriminate A end. }
    destruct (all_values H args regs l) as [vs|] eqn:E1; [|discriminate E].
    destruct (lookup (m_funs H M) k) as [[b|]|] eqn:E2; try discriminate E.
    inversion R; subst; try match goal with A : helper_value _ (CSym _) _ = Some _ |- _ => discriminate A end; try congruence.
    match goal with A : all_values _ _ _ _ = Some ?v, B : lookup _ _ = Some (Some ?c), C : nth_error _ ?c = Some ?d |- _ =>
      assert (v = vs) by congruence; assert (c = b) by congruence; subst v c; rewrite C in E end.
    match goal with R1 : run _ _ vs _ _ _ _ _ _ _ |- _ => exact (IH _ _ _ _ _ _ _ _ E R1) end.
Qed.

Definition main_stuck (f : nat) (out : h_out H) : bool :=
  match nth_error (m_blocks H M) (m_main H M) with
  | Some body => stuck f [] (fun _ => None) (mkmem H (fun n => nth n (m_init H M) Poison) []) out body
  | None => true
  end.
Lemma main_stuck_no : forall f out code o, main_stuck f out = true -> ~ module_exits H M out code o.
Proof.
  intros f out code o E (body & m & EB & R). unfold main_stuck in E. rewrite EB in E. exact (stuck_sound _ _ _ _ _ _ _ _ _ E R).
Qed.
End Stuck.
