(** The names of what a program declares. *)
From Coq Require Import List Arith NArith ZArith Bool Lia Ascii String.
From Verif Require Import Base Model_Token Model_Utf8 Model_Classify Model_Names Model_Parse Model_Sem Spec_Utf8 Spec_Token Spec_Classify Spec_Names Spec_Parse Spec_Sem Spec_Sem2 Spec_Run
  Spec_IR Model_LLVM Model_Link Spec_Link.
From Verif Require Import Proof_Token4 Proof_Token5 Proof_Classify2 Proof_Parse2 Proof_Parse5 Proof_Parse4 Proof_Sem5 Proof_Sem6 Proof_Sem8 Proof_SymNames Proof_CGen2 Proof_LLVM11 Proof_Link.
From Verif Require Spec_Pipeline.
Import ListNotations.
Open Scope list_scope.
Open Scope nat_scope.

(** * Tokens *)

Lemma utf8_ascii : forall t bs, utf8 t bs -> Forall (fun c => (c < 128)%N) t -> bs = t.
Proof.
  intros t bs U. induction U as [|c bs t rest E U IH]; intro F; [reflexivity|]. apply Forall_cons_iff in F as (C & F). rewrite (IH F).
  destruct E; try lia. reflexivity.
Qed.
Lemma slice_word : forall src t w, on_word src t w -> exists b, t_begin t = Some b /\ forall n, n <= List.length w -> firstn n (skipn b src) = firstn n w.
Proof.
  intros src t w (pre & post & E & B & L). exists (List.length pre). split; [exact B|]. intros n LE.
  rewrite E, skipn_app, skipn_all, Nat.sub_diag. cbn [app skipn]. rewrite firstn_app. replace (n - List.length w) with 0 by lia. cbn [firstn]. apply app_nil_r.
Qed.
Lemma no_identifier : forall s ty, In (s, ty) word_table -> ty <> T_IDENTIFIER /\ ty <> T_NEW_IDENTIFIER.
Proof. intros s ty I. unfold word_table in I. repeat (destruct I as [I|I]; [inversion I; subst; split; discriminate|]). destruct I. Qed.
Lemma no_delimiter : forall c ty, In (c, ty) delimiter_type -> ty <> T_IDENTIFIER /\ ty <> T_NEW_IDENTIFIER.
Proof. intros c ty I. unfold delimiter_type in I. repeat (destruct I as [I|I]; [inversion I; subst; split; discriminate|]). destruct I. Qed.

(** A name without points that stands in the text. *)
Definition simple_name (src : text) (n : text) : Prop := name n /\ ~ dotted n /\ List.length n <= List.length src.

Lemma named_token : forall src ts t n, Spec_Pipeline.lexed src ts -> source src -> Spec_Token.fits src -> In t ts ->
  t_type t = T_IDENTIFIER \/ t_type t = T_NEW_IDENTIFIER -> spells src t n -> simple_name src n.
Proof.
  intros src ts t n (raw & TK & CL) SO FI IN TY (b & BT & U).
  destruct (tokenize_text_ok src SO FI) as [(ls & ts0 & L & TK' & F2)|(e & l & TK' & _)]; [|congruence].
  rewrite TK in TK'. injection TK' as ->. destruct ls as [|x0 ls].
  { inversion F2; subst. cbn [fin classify_tokens] in CL. change (classify_token src make_token) with (@UB token) in CL. discriminate CL. }
  assert (fin ts0 = ts0) as EF by (inversion F2; reflexivity). rewrite EF in *.
  destruct (classify_all src ts0) as (ts' & CL' & F3).
  { apply Forall_forall. intros q I. destruct (forall2_in _ _ _ _ _ _ F2 I) as (x & Ix & (B & Ln & _)).
    destruct (lexed_in _ _ _ L x Ix) as (pre & v & post & Es & Eb & El & Nv). exists v. split; [assumption|]. exists pre, post. split; [assumption|]. rewrite B, Ln, Eb, El. auto. }
  rewrite CL in CL'. injection CL' as <-.
  assert (X : exists q x, stands_for src q x /\ classified src q t).
  { clear - F2 F3 IN. revert IN F2. generalize (x0 :: ls). induction F3 as [|q q' l l' C F3 IH]; [intros ? []|]. intros xs [<-|I] F2; inversion F2; subst.
    - eauto.
    - eauto. }
  destruct X as (q & x & SF & (B1 & _ & CT & CU)). assert (DD : t_type q = T_UNKNOWN \/ t_type q <> T_UNKNOWN) by (destruct (t_type q); (left; reflexivity) || (right; discriminate)). destruct DD as [D|D].
  - destruct (CU D) as (w & NW & OW & [(_ & E)|(IC & LN & LO)]); [subst t; rewrite D in TY; destruct TY; discriminate|].
    destruct (slice_word _ _ _ OW) as (b' & EB & SL). assert (b' = b) by congruence. subst b'.
    destruct OW as (pre & post & ES & _ & LW).
    inversion IC as [s ty I E1 E2|s I Z E1 E2|s I E1 E2|s I E1 E2|s I E1 E2|s I E1 E2|s NM ND NR E1 E2|s NM DD E1 E2|s NM ND NR NT E1 E2]; try (rewrite <- E2 in TY; destruct TY; discriminate).
    + apply no_identifier in I. destruct TY, I; contradiction.
    + subst s. rewrite LO, LW, Nnat.Nat2N.id, SL, firstn_all in U by (try rewrite <- E2; try discriminate; lia).
      apply utf8_ascii in U; [|now apply nameish_ascii, name_nameish]. subst n. split; [exact NM|]. split; [exact ND|]. rewrite ES, !app_length. lia.
    + assert (LL : N.to_nat (t_len t) = List.length s). { rewrite LN, LW, <- E1, app_length by congruence. cbn [List.length]. lia. }
      rewrite LL, SL, <- E1, firstn_app, Nat.sub_diag, firstn_all, app_nil_r in U by (rewrite <- E1, app_length; lia).
      apply utf8_ascii in U; [|now apply nameish_ascii, name_nameish]. subst n. split; [exact NM|]. split; [exact ND|]. rewrite ES, <- E1, !app_length. lia.
  - rewrite (CT D) in TY. destruct SF as (_ & _ & K & _). destruct (x_kind x).
    + apply no_delimiter in K. destruct TY, K; contradiction.
    + contradiction.
    + rewrite K in TY. destruct TY; discriminate.
Qed.

(** * Declarations *)

Lemma in_block_in : forall f k l, In k (in_block f l) -> exists n, In n l /\ In k (f n).
Proof.
  intros f k l. induction l as [|n l IH]; [intros []|]. cbn [in_block]. intro I. apply in_app_iff in I as [I|I]; [exists n; split; [now left|exact I]|].
  destruct (last_in_block n); [destruct I|]. destruct (IH I) as (m & J & K). exists m. split; [now right|exact K].
Qed.
Definition declares_here (x : tnode) (k : nat) : Prop := (exists e, tn_pay x = XDef k e) \/ exists ps, tn_pay x = XProto k ps.
Lemma in_checked_one : forall x n l, in_checked x [n] -> In n l -> in_checked x l.
Proof.
  intros x n l C I. inversion C as [|y q J C' EQ]; subst.
  - match goal with K : In x [n] |- _ => destruct K as [<-|[]] end. now apply ic_here.
  - match goal with K : In _ [n] |- _ => destruct K as [<-|[]] end. eapply ic_below; eassumption.
Qed.
Lemma declares_node : forall ys n b k, In k (declares ys b n) -> exists x, in_checked x [n] /\ declares_here x k.
Proof.
  intros ys n. induction n as [ty tok p c IH] using tnode_ind'. intros b k I.
  assert (R : forall b, In k (in_block (declares ys b) c) -> exists x, in_checked x [mktnode ty tok p c] /\ declares_here x k).
  { intros b' J. apply in_block_in in J as (m & Jm & J). rewrite Forall_forall in IH. destruct (IH m Jm _ _ J) as (x & C & D). exists x. split; [|exact D].
    apply (ic_below _ (mktnode ty tok p c)); [now left|]. cbn [tn_child]. exact (in_checked_one _ _ _ C Jm). }
  rewrite declares_eq in I. cbn [tn_type tn_pay tn_child] in I. destruct ty; try (destruct I; fail); try exact (R _ I).
  - destruct p; try (destruct I; fail). destruct b; [|destruct I]. destruct I as [<-|[]]. eexists. split; [apply ic_here; now left|]. left. eexists. reflexivity.
  - destruct p; try (destruct I; fail). destruct I as [<-|I].
    + eexists. split; [apply ic_here; now left|]. right. eexists. reflexivity.
    + match type of I with context[external ys ?q] => destruct (external ys q) end; [destruct I|]. exact (R _ I).
Qed.
Lemma declared_node : forall ys l k, In k (declared ys l) -> exists x, in_checked x l /\ declares_here x k.
Proof.
  intros ys l k I. apply in_block_in in I as (n & J & I). apply declares_node in I as (x & C & D). exists x. split; [|exact D].
  exact (in_checked_one _ _ _ C J).
Qed.

Lemma nodup_app : forall {A} (a b : list A), NoDup (a ++ b) -> NoDup a /\ NoDup b /\ forall x, In x a -> In x b -> False.
Proof.
  intros A a b. induction a as [|x a IH]; cbn [app]; intro D; [split; [constructor|]; split; [exact D|intros x []]|].
  inversion D as [|? ? NI D' E]; subst. destruct (IH D') as (D1 & D2 & DJ). split; [|split; [exact D2|]].
  - constructor; [|exact D1]. intro X. apply NI, in_app_iff. now left.
  - intros y [<-|Y] Z; [apply NI, in_app_iff; now right|exact (DJ y Y Z)].
Qed.
Lemma app_nodup : forall {A} (a b : list A), NoDup a -> NoDup b -> (forall x, In x a -> In x b -> False) -> NoDup (a ++ b).
Proof.
  intros A a b D1 D2. induction D1 as [|x a NI D1 IH]; intro DJ; [exact D2|]. cbn [app]. constructor.
  - intro X. apply in_app_iff in X as [X|X]; [contradiction|]. apply (DJ x); [now left|exact X].
  - apply IH. intros y Y. apply DJ. now right.
Qed.
Lemma in_block_nodup : forall f l, Forall (fun n => incl (f n) (numbers n) /\ (NoDup (numbers n) -> NoDup (f n))) l ->
  incl (in_block f l) (flat_map numbers l) /\ (NoDup (flat_map numbers l) -> NoDup (in_block f l)).
Proof.
  intros f l F. induction F as [|n l (I & D) F (IH1 & IH2)]; [split; [intros x []|constructor]|]. cbn [in_block flat_map]. split.
  - intros x X. apply in_app_iff in X as [X|X]; apply in_app_iff; [left; auto|right]. destruct (last_in_block n); [destruct X|auto].
  - intro ND. apply nodup_app in ND as (ND1 & ND2 & DJ). specialize (D ND1). specialize (IH2 ND2).
    destruct (last_in_block n); [rewrite app_nil_r; exact D|]. apply app_nodup; [exact D|exact IH2|]. intros x A B. exact (DJ x (I x A) (IH1 x B)).
Qed.
Lemma declares_nodup : forall ys n b, incl (declares ys b n) (numbers n) /\ (NoDup (numbers n) -> NoDup (declares ys b n)).
Proof.
  intros ys n. induction n as [ty tok p c IH] using tnode_ind'. intro b. rewrite declares_eq. cbn [tn_type tn_pay tn_child numbers].
  assert (R : forall b, incl (in_block (declares ys b) c) (flat_map numbers c) /\ (NoDup (flat_map numbers c) -> NoDup (in_block (declares ys b) c))).
  { intro b'. apply in_block_nodup. eapply Forall_impl; [|exact IH]. intros a A. apply A. }
  assert (R' : forall b h, incl (in_block (declares ys b) c) (h ++ flat_map numbers c) /\ (NoDup (h ++ flat_map numbers c) -> NoDup (in_block (declares ys b) c))).
  { intros b' h. destruct (R b') as (R1 & R2). split; [intros x X; apply in_app_iff; right; auto|]. intro ND. apply R2. now apply nodup_app in ND. }
  assert (Z : forall h, incl [] (h ++ flat_map numbers c) /\ (NoDup (h ++ flat_map numbers c) -> NoDup (@nil nat))) by (intro h; split; [intros x []|constructor]).
  destruct ty; auto; destruct p; auto.
  - destruct b; auto. cbn [numbers_here tn_pay]. split; [intros x [<-|[]]; now left|]. intros _. constructor; [intros []|constructor].
  - cbn [numbers_here tn_pay]. match goal with |- context[external ys ?q] => rename q into k; destruct (external ys k) end.
    + split; [intros x [<-|[]]; now left|]. intros _. constructor; [intros []|constructor].
    + destruct (R' false (numbers_here (mktnode N_FUNCTION_PROTO tok (XProto k params) c))) as (R1 & R2). destruct (R false) as (R3 & R4). split.
      * intros x [<-|X]; [now left|auto].
      * intro ND. constructor; [|auto]. intro X. apply R3 in X. cbn in ND. inversion ND as [|? ? NI _]; subst. apply NI. apply in_app_iff. now right.
Qed.
Lemma declared_nodup : forall ys l, NoDup (flat_map numbers l) -> NoDup (declared ys l).
Proof. intros ys l. apply in_block_nodup. apply Forall_forall. intros n _. apply declares_nodup. Qed.

(** The names and modifiers of declarations. *)
Lemma node_names : forall w src ts tree s l, Spec_Pipeline.lexed src ts -> source src -> Spec_Token.fits src ->
  accepted w src ts tree s l -> no_call_blocks tree -> few_arguments tree ->
  forall k x, in_checked x l -> declares_here x k -> simple_name src (name_of (s_syms s) k) /\ exported (s_syms s) k && external (s_syms s) k = false.
Proof.
  intros w src ts tree s l LX SO FI A NC FA k x C D.
  destruct (final_symbols _ _ _ _ _ _ A NC FA) as (s1 & e & EQ & RD & B). destruct (checked_paired _ _ _ _ _ C _ _ _ B) as (n & P).
  pose proof (accepted_named _ _ _ _ _ _ A n x P) as NM. assert (IT : in_tree n tree) by exact (paired_in _ _ _ _ P).
  destruct A as ((ms & PA) & _). destruct (parsed_of _ _ _ PA) as (_ & _ & FN & _). destruct (FN n IT) as ((a & TS) & WR & _).
  unfold named in NM. destruct D as [(e0 & D)|(ps0 & D)]; rewrite D in NM.
  - destruct NM as (t & r & e1 & i & c & z & PN & (y & NY & SP) & (y' & v & NY' & KV & _)). rewrite NY in NY'. injection NY' as <-.
    unfold name_of, exported, external. rewrite NY, KV, andb_false_r. split; [|reflexivity].
    assert (TT : In t (n_token n) /\ (t_type t = T_IDENTIFIER \/ t_type t = T_NEW_IDENTIFIER)).
    { unfold written in WR. rewrite PN in WR. destruct (n_type n); try discriminate WR; try (decompose [ex and or] WR; discriminate).
      destruct WR as (nm & e2 & i2 & c2 & x2 & E & mods & TK & _ & _ & _ & W). injection E as <- <- <- <- <-. rewrite TK. destruct i.
      - destruct W as (x3 & q3 & r3 & E & _ & T & _). injection E as -> ->. split; [apply in_app_iff; right; now left|now left].
      - destruct W as (x3 & ty3 & q3 & r3 & E & _ & T & _). injection E as -> ->. split; [apply in_app_iff; right; now left|now right]. }
    destruct TT as (T1 & T2). apply (named_token src ts t); auto. rewrite TS. apply in_app_iff. now right.
  - destruct NM as (t & ret & num & ext & exp & ps & PN & ((y & NY & SP) & (y' & f & NY' & KF & F1 & F2)) & _). rewrite NY in NY'. injection NY' as <-.
    unfold name_of, exported, external. rewrite NY, KF, F1, F2.
    unfold written in WR. rewrite PN in WR. destruct (n_type n); try discriminate WR; try (decompose [ex and or] WR; discriminate).
    destruct WR as (nm & ret2 & k2 & ext2 & exp2 & ps2 & E & mods & po & inner & pc & after & all & TK & MS & M1 & M2 & T & _). injection E as <- <- <- <- <- <-. split.
    + apply (named_token src ts t); auto. rewrite TS, TK. apply in_app_iff. right. apply in_app_iff. right. now left.
    + unfold modifier in *. destruct exp, ext; try reflexivity. destruct (proj1 M1 eq_refl) as (m1 & E1 & T1). destruct (proj1 M2 eq_refl) as (m2 & E2 & T2). congruence.
Qed.
Lemma declared_names : forall w src ts tree s l, Spec_Pipeline.lexed src ts -> source src -> Spec_Token.fits src ->
  accepted w src ts tree s l -> no_call_blocks tree -> few_arguments tree ->
  forall k, In k (declared (s_syms s) l) -> simple_name src (name_of (s_syms s) k) /\ exported (s_syms s) k && external (s_syms s) k = false.
Proof. intros w src ts tree s l LX SO FI A NC FA k I. apply declared_node in I as (x & C & D). eapply node_names; eassumption. Qed.
