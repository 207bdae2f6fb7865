(** The grammar of Spec_C.v is unambiguous: a parser finds every reading. *)
From Coq Require Import List Arith NArith ZArith Bool Lia Ascii String.
From Verif Require Import Base Spec_C.
Import ListNotations.
Open Scope list_scope.
Open Scope N_scope.

Scheme reads_ind2 := Induction for reads Sort Prop
  with reads_args_ind2 := Induction for reads_args Sort Prop
  with reads_list_ind2 := Induction for reads_list Sort Prop.
Combined Scheme reads_mutind from reads_ind2, reads_args_ind2, reads_list_ind2.

Definition is_op (t : ctok) (s : text) : bool := match t with KOp o => text_eqb o s | _ => false end.
Definition is_unary (t : ctok) : bool :=
  match t with KOp o => existsb (text_eqb o) unary_ops | _ => false end.
Definition has_level (t : ctok) (n : nat) : bool :=
  match t with KOp o => match level_of o with Some m => Nat.eqb m n | None => false end | _ => false end.
Definition op_text (t : ctok) : text := match t with KOp o => o | _ => [] end.

Fixpoint parse (f : nat) (n : nat) (ts : list ctok) {struct f} : option (cexp * list ctok) :=
  match f with
  | O => None
  | S f =>
      match n with
      | O =>
          match ts with
          | KId x :: r => if c_name x then Some (CId x, r) else None
          | KNum x :: r => Some (CNum x, r)
          | KStr x :: r => Some (CStr x, r)
          | t :: r =>
              if is_op t (u "(") then
                match parse f 12 r with
                | Some (e, t' :: r') => if is_op t' (u ")") then Some (e, r') else None
                | _ => None
                end
              else None
          | [] => None
          end
      | 1%nat =>
          match parse f 0 ts with
          | Some (e, r) => calls f e r
          | None => None
          end
      | 2%nat =>
          match ts with
          | t :: r =>
              if is_unary t then
                match parse f 2 r with Some (e, r') => Some (CUn (op_text t) e, r') | None => None end
              else parse f 1 ts
          | [] => None
          end
      | S m =>
          match parse f m ts with
          | Some (e, r) => loop f n e r
          | None => None
          end
      end
  end
with calls (f : nat) (e : cexp) (ts : list ctok) {struct f} : option (cexp * list ctok) :=
  match f with
  | O => None
  | S f =>
      match ts with
      | t :: r =>
          if is_op t (u "(") then
            match r with
            | t' :: r' =>
                if is_op t' (u ")") then calls f (CCall e []) r'
                else
                  match items f r with
                  | Some (es, r'') => calls f (CCall e es) r''
                  | None => None
                  end
            | [] => None
            end
          else Some (e, ts)
      | [] => Some (e, ts)
      end
  end
with items (f : nat) (ts : list ctok) {struct f} : option (list cexp * list ctok) :=
  match f with
  | O => None
  | S f =>
      match parse f 12 ts with
      | Some (e, t :: r) =>
          if is_op t (u ")") then Some ([e], r)
          else if is_op t (u ",") then
            match items f r with Some (es, r') => Some (e :: es, r') | None => None end
          else None
      | _ => None
      end
  end
with loop (f : nat) (n : nat) (e : cexp) (ts : list ctok) {struct f} : option (cexp * list ctok) :=
  match f with
  | O => None
  | S f =>
      match ts with
      | t :: r =>
          if has_level t n then
            match parse f (n - 1) r with
            | Some (b, r') => loop f n (CBin (op_text t) e b) r'
            | None => None
            end
          else Some (e, ts)
      | [] => Some (e, ts)
      end
  end.

Lemma parse_mono : forall f,
  (forall n ts x, parse f n ts = Some x -> parse (S f) n ts = Some x) /\
  (forall e ts x, calls f e ts = Some x -> calls (S f) e ts = Some x) /\
  (forall ts x, items f ts = Some x -> items (S f) ts = Some x) /\
  (forall n e ts x, loop f n e ts = Some x -> loop (S f) n e ts = Some x).
Proof.
  induction f as [|f (IHp & IHc & IHi & IHl)]; [repeat split; intros; discriminate|].
  split; [|split; [|split]].
  - intros n ts x H. destruct n as [|[|[|n]]].
    + cbn [parse] in H. remember (S f) as sf. cbn [parse].
      destruct ts as [|[a|a|a|a] r]; auto.
      destruct (is_op (KOp a) (u "(")); [|discriminate H].
      destruct (parse f 12 r) as [[e r']|] eqn:E; [|discriminate H].
      rewrite (IHp _ _ _ E). exact H.
    + cbn [parse] in H. remember (S f) as sf. cbn [parse].
      destruct (parse f 0 ts) as [[e r]|] eqn:E; [|discriminate H].
      rewrite (IHp _ _ _ E). apply IHc. exact H.
    + cbn [parse] in H. remember (S f) as sf. cbn [parse].
      destruct ts as [|t r]; [discriminate H|]. destruct (is_unary t).
      * destruct (parse f 2 r) as [[e r']|] eqn:E; [|discriminate H].
        rewrite (IHp _ _ _ E). exact H.
      * apply IHp. exact H.
    + cbn [parse] in H. remember (S f) as sf. cbn [parse].
      destruct (parse f (S (S n)) ts) as [[e r]|] eqn:E; [|discriminate H].
      rewrite (IHp _ _ _ E). apply IHl. exact H.
  - intros e ts x H. cbn [calls] in H. remember (S f) as sf. cbn [calls].
    destruct ts as [|t r]; auto. destruct (is_op t (u "(")); auto.
    destruct r as [|t' r']; auto. destruct (is_op t' (u ")")).
    + apply IHc. exact H.
    + destruct (items f (t' :: r')) as [[es r'']|] eqn:E; [|discriminate H].
      rewrite (IHi _ _ E). apply IHc. exact H.
  - intros ts x H. cbn [items] in H. remember (S f) as sf. cbn [items].
    destruct (parse f 12 ts) as [[e [|t r]]|] eqn:E; try discriminate H.
    rewrite (IHp _ _ _ E). destruct (is_op t (u ")")); auto. destruct (is_op t (u ",")); auto.
    destruct (items f r) as [[es r']|] eqn:E2; [|discriminate H].
    rewrite (IHi _ _ E2). exact H.
  - intros n e ts x H. cbn [loop] in H. remember (S f) as sf. cbn [loop].
    destruct ts as [|t r]; auto. destruct (has_level t n); auto.
    destruct (parse f (n - 1) r) as [[b r']|] eqn:E; [|discriminate H].
    rewrite (IHp _ _ _ E). apply IHl. exact H.
Qed.

Lemma parse_more : forall k f n ts x, parse f n ts = Some x -> parse (k + f) n ts = Some x.
Proof. induction k; intros; cbn [Nat.add]; auto. apply parse_mono. auto. Qed.
Lemma calls_more : forall k f e ts x, calls f e ts = Some x -> calls (k + f) e ts = Some x.
Proof. induction k; intros; cbn [Nat.add]; auto. apply parse_mono. auto. Qed.
Lemma items_more : forall k f ts x, items f ts = Some x -> items (k + f) ts = Some x.
Proof. induction k; intros; cbn [Nat.add]; auto. apply parse_mono. auto. Qed.
Lemma loop_more : forall k f n e ts x, loop f n e ts = Some x -> loop (k + f) n e ts = Some x.
Proof. induction k; intros; cbn [Nat.add]; auto. apply parse_mono. auto. Qed.

(** The token behind an expression of level n does not continue it from below. *)
Definition ends_at (n : nat) (r : list ctok) : Prop :=
  match r with
  | [] => True
  | t :: _ => (2 <= n -> is_op t (u "(") = false)%nat /\
              (forall m, (m < n)%nat -> has_level t m = false)
  end.

(** What a reading of level n behind which r stands makes the parser do. *)
Definition goes (n : nat) (e : cexp) (r : list ctok) (x : cexp * list ctok) : Prop :=
  match n with
  | O => x = (e, r)
  | 1%nat => exists f, calls f e r = Some x
  | 2%nat => x = (e, r)
  | _ => exists f, loop f n e r = Some x
  end.

Lemma ends_mono : forall n m r, (n <= m)%nat -> ends_at m r -> ends_at n r.
Proof.
  intros n m [|t r] L H; [exact I|]. destruct H as [H1 H2]. split.
  - intro. apply H1. lia.
  - intros k Hk. apply H2. lia.
Qed.

Lemma level_pos : forall op n, level_of op = Some n -> (3 <= n)%nat.
Proof.
  intros op n. unfold level_of.
  repeat match goal with |- (if ?b then _ else _) = _ -> _ => destruct b end;
    intro H; try discriminate H; injection H as <-; lia.
Qed.

Lemma level_not_paren : forall op n, level_of op = Some n -> text_eqb op (u "(") = false.
Proof.
  intros op n H. apply text_eqb_neq. intros ->. vm_compute in H. discriminate H.
Qed.

(** A postfix expression does not begin with a unary operator. *)
Lemma postfix_head : forall n ts e, reads n ts e -> (n <= 1)%nat ->
  exists t r, ts = t :: r /\ is_unary t = false.
Proof.
  induction 1 as [x Hx|x|x|ts e R IH|ts e args es R IH A|op ts e Ho R IH|n op a b ea eb Hl Ra IHa Rb IHb|n ts e Hn R IH];
    intro L.
  - eauto.
  - eauto.
  - eauto.
  - do 2 eexists. split; reflexivity.
  - destruct IH as (t & r & -> & U); [lia|]. exists t, (r ++ KOp (u "(") :: args ++ [KOp (u ")")]). auto.
  - lia.
  - apply level_pos in Hl. lia.
  - apply IH. lia.
Qed.

Lemma is_op_refl : forall s, is_op (KOp s) s = true.
Proof. intro s. apply text_eqb_refl. Qed.

Lemma reads_nonempty : forall n ts e, reads n ts e -> ts <> [].
Proof.
  induction 1; try discriminate; auto.
  - intro K. apply app_eq_nil in K. tauto.
  - intro K. apply app_eq_nil in K. tauto.
Qed.

(** No reading begins with a closing parenthesis. *)
Lemma reads_head : forall n ts e, reads n ts e -> forall t r, ts = t :: r -> is_op t (u ")") = false.
Proof.
  induction 1 as [x Hx|x|x|ts e R IH|ts e args es R IH A|op ts e Ho R IH|n op a b ea eb Hl Ra IHa Rb IHb|n ts e Hn R IH];
    intros t r E.
  - injection E as <- _. reflexivity.
  - injection E as <- _. reflexivity.
  - injection E as <- _. reflexivity.
  - injection E as <- _. reflexivity.
  - destruct ts as [|t0 ts]; [exfalso; apply (reads_nonempty _ _ _ R); reflexivity|].
    injection E as <- _. apply (IH t0 ts eq_refl).
  - injection E as <- _. cbn [is_op].
    destruct (text_eqb op (u ")")) eqn:T; [|reflexivity]. apply text_eqb_eq in T. subst op. exfalso.
    assert (X : existsb (text_eqb (u ")")) unary_ops = true)
      by (apply existsb_exists; eexists; split; [exact Ho|apply text_eqb_refl]).
    vm_compute in X. discriminate X.
  - destruct a as [|t0 a]; [exfalso; apply (reads_nonempty _ _ _ Ra); reflexivity|].
    injection E as <- _. apply (IHa t0 a eq_refl).
  - apply (IH t r E).
Qed.

Lemma parse_complete :
  (forall n ts e, reads n ts e -> forall r x, ends_at n r -> goes n e r x ->
     exists f, parse f n (ts ++ r) = Some x) /\
  (forall ts es, reads_args ts es ->
     (ts = [] /\ es = []) \/
     (exists t0 r0, ts = t0 :: r0 /\ is_op t0 (u ")") = false) /\
     forall r, exists f, items f (ts ++ KOp (u ")") :: r) = Some (es, r)) /\
  (forall ts es, reads_list ts es ->
     (exists t0 r0, ts = t0 :: r0 /\ is_op t0 (u ")") = false) /\
     forall r, exists f, items f (ts ++ KOp (u ")") :: r) = Some (es, r)).
Proof.
  assert (NP : forall r, ends_at 12 (KOp (u ")") :: r)).
  { intro r. split; [reflexivity|]. intros m Hm. reflexivity. }
  assert (NC : forall r, ends_at 12 (KOp (u ",") :: r)).
  { intro r. split; [reflexivity|]. intros m Hm. reflexivity. }
  apply reads_mutind.
  - intros n Hn r x _ G. cbn [goes] in G. subst x. exists 1%nat. cbn [parse app]. now rewrite Hn.
  - intros n r x _ G. cbn [goes] in G. subst x. exists 1%nat. reflexivity.
  - intros n r x _ G. cbn [goes] in G. subst x. exists 1%nat. reflexivity.
  - intros ts e R IH r x _ G. cbn [goes] in G. subst x.
    destruct (IH (KOp (u ")") :: r) (e, KOp (u ")") :: r) (NP r)) as (f & F).
    { exists 1%nat. reflexivity. }
    exists (S f). cbn [app parse]. rewrite <- app_assoc. cbn [app].
    change (is_op (KOp (u "(")) (u "(")) with true. cbn match. rewrite F.
    change (is_op (KOp (u ")")) (u ")")) with true. reflexivity.
  - intros ts e args es R IH A IHA r x _ (f & F).
    rewrite <- app_assoc. cbn [app]. rewrite <- app_assoc. cbn [app].
    apply IH; [split; [lia|]; intros m Hm; destruct m; reflexivity|].
    destruct IHA as [(-> & ->)|((t0 & r0 & -> & T) & I)].
    + exists (S f). cbn [app calls]. change (is_op (KOp (u "(")) (u "(")) with true. cbn match.
      change (is_op (KOp (u ")")) (u ")")) with true. exact F.
    + destruct (I r) as (g & Hg). exists (S (f + g)). cbn [app calls].
      change (is_op (KOp (u "(")) (u "(")) with true. cbn match. rewrite T.
      cbn [app] in Hg. rewrite (items_more f _ _ _ Hg). rewrite Nat.add_comm. apply calls_more. exact F.
  - intros op ts e Ho R IH r x E G. cbn [goes] in G. subst x.
    destruct (IH r (e, r) E eq_refl) as (f & F). exists (S f). cbn [app parse is_unary].
    replace (existsb (text_eqb op) unary_ops) with true.
    + rewrite F. reflexivity.
    + symmetry. apply existsb_exists. exists op. split; [exact Ho|apply text_eqb_refl].
  - intros n op a b ea eb Hl Ra IHa Rb IHb r x E G.
    pose proof (level_pos _ _ Hl) as P. rewrite <- app_assoc. cbn [app].
    apply IHa.
    + split; [intros _; cbn [is_op]; apply (level_not_paren _ _ Hl)|].
      intros m Hm. cbn [has_level]. rewrite Hl. apply Nat.eqb_neq. lia.
    + destruct n as [|[|n]]; [lia|lia|]. cbn [goes] in G |- *. destruct G as (f & F).
      assert (Gb : goes (S (S n)) eb r (eb, r)).
      { destruct n as [|n]; [reflexivity|]. exists 1%nat. cbn [loop]. destruct r as [|t r]; [reflexivity|].
        destruct E as [_ E]. rewrite (E (S (S (S n)))) by lia. reflexivity. }
      destruct (IHb r (eb, r) (ends_mono (S (S n)) (S (S (S n))) r (Nat.le_succ_diag_r _) E) Gb) as (g & Hg).
      exists (S (f + g)). cbn [loop has_level]. rewrite Hl, Nat.eqb_refl.
      replace (S (S (S n)) - 1)%nat with (S (S n)) by lia.
      rewrite (parse_more f _ _ _ _ Hg). cbn [op_text]. rewrite Nat.add_comm. apply loop_more. exact F.
  - intros n ts e Hn R IH r x E G.
    destruct n as [|[|n]].
    + destruct (IH r (e, r)) as (f & F); [exact (ends_mono 0 1 r ltac:(lia) E)|reflexivity|].
      destruct G as (g & Hg). exists (S (g + f)). cbn [parse].
      rewrite (parse_more g _ _ _ _ F). rewrite Nat.add_comm. apply calls_more. exact Hg.
    + cbn [goes] in G. subst x. destruct (IH r (e, r)) as (f & F).
      * exact (ends_mono 1 2 r ltac:(lia) E).
      * exists 1%nat. cbn [calls]. destruct r as [|t r]; [reflexivity|].
        destruct E as [E _]. rewrite E by lia. reflexivity.
      * exists (S f). cbn [parse].
        destruct (postfix_head _ _ _ R) as (t & r' & -> & U); [lia|]. cbn [app] in *. rewrite U. exact F.
    + destruct G as (g & Hg).
      destruct (IH r (e, r)) as (f & F); [exact (ends_mono (S (S n)) (S (S (S n))) r (Nat.le_succ_diag_r _) E)| |].
      * destruct n as [|n]; [reflexivity|]. exists 1%nat. cbn [loop]. destruct r as [|t r]; [reflexivity|].
        destruct E as [_ E]. rewrite (E (S (S (S n)))) by lia. reflexivity.
      * exists (S (g + f)). cbn [parse]. rewrite (parse_more g _ _ _ _ F).
        rewrite Nat.add_comm. apply loop_more. exact Hg.
  - left. auto.
  - intros ts es _ IH. right. exact IH.
  - intros ts e R IH. split.
    + destruct ts as [|t0 r0] eqn:T; [exfalso; apply (reads_nonempty _ _ _ R); reflexivity|].
      exists t0, r0. split; [reflexivity|]. apply (reads_head _ _ _ R t0 r0 eq_refl).
    + intro r. destruct (IH (KOp (u ")") :: r) (e, KOp (u ")") :: r) (NP r)) as (f & F).
      { exists 1%nat. reflexivity. }
      exists (S f). cbn [items]. rewrite F. change (is_op (KOp (u ")")) (u ")")) with true. reflexivity.
  - intros ts e ts' es R IH _ [_ IH']. split.
    + destruct ts as [|t0 r0] eqn:T; [exfalso; apply (reads_nonempty _ _ _ R); reflexivity|].
      do 2 eexists. split; [reflexivity|]. apply (reads_head _ _ _ R t0 r0 eq_refl).
    + intro r. destruct (IH (KOp (u ",") :: ts' ++ KOp (u ")") :: r)
                            (e, KOp (u ",") :: ts' ++ KOp (u ")") :: r) (NC _)) as (f & F).
      { exists 1%nat. reflexivity. }
      destruct (IH' r) as (g & Hg). exists (S (g + f)). cbn [items]. rewrite <- app_assoc. cbn [app].
      rewrite (parse_more g _ _ _ _ F).
      change (is_op (KOp (u ",")) (u ")")) with false. change (is_op (KOp (u ",")) (u ",")) with true. cbn match.
      rewrite Nat.add_comm, (items_more f _ _ _ Hg). reflexivity.
Qed.

Lemma reads_unique : forall ts e e', reads 12 ts e -> reads 12 ts e' -> e = e'.
Proof.
  intros ts e e' A B. destruct parse_complete as (C & _ & _).
  destruct (C _ _ _ A [] (e, []) I) as (f & F); [exists 1%nat; reflexivity|].
  destruct (C _ _ _ B [] (e', []) I) as (g & G); [exists 1%nat; reflexivity|].
  apply (parse_more g) in F. apply (parse_more f) in G. rewrite Nat.add_comm in G. congruence.
Qed.

Lemma reads_higher : forall n m ts e, (n <= m)%nat -> (m <= 12)%nat -> reads n ts e -> reads m ts e.
Proof.
  intros n m ts e L M R. induction L as [|m L IH]; [exact R|]. apply R_up; [lia|]. apply IH. lia.
Qed.
