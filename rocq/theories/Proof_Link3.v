(** The names in LLVM modules. *)
From Coq Require Import List Arith NArith ZArith Bool Lia Ascii String.
From Verif Require Import Base Model_Names Model_Parse Model_Sem Spec_Classify Spec_Names Spec_Run Spec_IR Model_LLVM Model_Link Spec_Link.
From Verif Require Import Proof_Names Proof_Link Proof_Link2.
From Verif Require Spec_Pipeline Spec_Token Spec_Sem Proof_Sem8.
Import ListNotations.
Open Scope list_scope.
Open Scope nat_scope.

(** * Names *)

Definition simple (n : text) : Prop := name n /\ ~ dotted n /\ Spec_Names.fits n.

Lemma last_dot : forall a b n d, ~ In dot n -> ~ In dot d -> a ++ dot :: n = b ++ dot :: d -> a = b /\ n = d.
Proof.
  intros a. induction a as [|x a IH]; intros b n d Hn Hd E.
  - destruct b as [|y b]; cbn in E; [injection E as ->; auto|]. injection E as <- ->. exfalso. apply Hn, in_app_iff. right. now left.
  - destruct b as [|y b]; cbn in E; [injection E as -> <-; exfalso; apply Hd, in_app_iff; right; now left|].
    injection E as <- E. destruct (IH _ _ _ Hn Hd E) as (-> & ->). auto.
Qed.
Lemma simple_head : forall n, simple n -> exists c r, n = c :: r /\ letter c.
Proof. intros n ((c & r & E & L & _) & _). eauto. Qed.
Lemma letter_not : forall c, letter c -> c <> chr "_" /\ c <> dot /\ ~ digit c.
Proof. intros c L. unfold letter, digit, dot, chr, N_of_ascii in *. cbn in *. lia. Qed.
Lemma digits_no_dot : forall d, Forall digit d -> ~ In dot d.
Proof. intros d F I. rewrite Forall_forall in F. apply F in I. unfold digit, dot, chr in I. cbn in I. lia. Qed.
Lemma simple_no_dot : forall n, simple n -> ~ In dot n.
Proof. intros n (_ & D & _). exact D. Qed.
Lemma simple_nz : forall n, simple n -> nz n.
Proof.
  intros n ((c & r & -> & L & F & _) & _). constructor.
  - unfold letter, chr in L. cbn in L. lia.
  - eapply Forall_impl; [|exact F]. intros a A. unfold name_char, letter, digit, chr in A. cbn in A. lia.
Qed.
Lemma in_dot : forall a b, In dot (a ++ dot :: b).
Proof. intros. apply in_app_iff. right. now left. Qed.

(** * Modules *)

Lemma taken_false : forall n l, taken n l = false <-> ~ In n (map en_name l).
Proof.
  intros n l. unfold taken. split.
  - intros E I. apply in_map_iff in I as (e & <- & I). assert (X : existsb (fun e0 => text_eqb (en_name e0) (en_name e)) l = true) by (apply existsb_exists; exists e; split; [exact I|apply text_eqb_refl]). congruence.
  - intro NI. destruct (existsb _ _) eqn:E; [|reflexivity]. apply existsb_exists in E as (e & I & Q). apply text_eqb_eq in Q. subst n. exfalso. apply NI, in_map, I.
Qed.

Section Module.
Variable fresh : list text -> text -> text.
Variable ys : list symbol.
Variable filename m : text.
Variable binary : bool.
Variable ds : list nat.
Hypothesis RN : renames fresh.
Hypothesis HB : has_base filename (m ++ u ".sk").
Hypothesis NZ : nz m.
Hypothesis FM : Spec_Names.fits m.
Hypothesis PL : forall k, In k ds -> simple (name_of ys k).
Hypothesis XX : forall k, In k ds -> exported ys k && external ys k = false.
Hypothesis A1 : forall j k, In j ds -> In k ds -> exported ys j = true -> exported ys k = true -> name_of ys j = name_of ys k -> j = k.
Hypothesis A2 : forall j k, In j ds -> In k ds -> external ys j = true -> exported ys k = false -> name_of ys j = name_of ys k -> j = k.
Hypothesis A3 : binary = true -> forall k, In k ds -> exported ys k = false -> name_of ys k <> u "exit".

Definition planned (k : nat) : text := if exported ys k then m ++ dot :: name_of ys k else name_of ys k.
Definition thing_of (k : nat) : thing :=
  match nth_error ys k with Some y => match y_kind y with KFunc _ => OfFun k | _ => OfVar k end | None => OfVar k end.
Definition right_thing (t : thing) : Prop :=
  match t with
  | OfVar k | OfFun k => In k ds /\ t = thing_of k
  | OfHelper f => forall k, f <> CSym k
  | OfShim => False
  | OfExit => binary = true
  | _ => True
  end.
Definition tname (t : thing) : text :=
  match t with
  | OfMain => dot :: m
  | OfVar k | OfFun k => planned k
  | OfHelper f => helper_text f
  | OfStart => u "_start"
  | OfExit => u "exit"
  | OfShim => []
  end.
Definition tprivate (t : thing) : bool := match t with OfVar k => negb (exported ys k) | OfFun k => negb (external ys k || exported ys k) | _ => false end.
Definition tbody (t : thing) : bool := match t with OfMain | OfVar _ | OfStart => true | OfFun k => negb (external ys k) | _ => false end.
Definition tfun (t : thing) : bool := match t with OfVar _ => false | _ => true end.
Definition good_name (t : thing) (n : text) : Prop :=
  n = tname t \/ tprivate t = true /\ exists d, n = tname t ++ dot :: d /\ d <> [] /\ Forall digit d.

Lemma thing_fun : forall k, OfFun k = thing_of k -> exists y f, nth_error ys k = Some y /\ y_kind y = KFunc f.
Proof. intros k E. unfold thing_of in E. destruct (nth_error ys k) as [y|]; [|discriminate]. destruct (y_kind y) eqn:K; try discriminate. eauto. Qed.
Lemma thing_var : forall k, OfVar k = thing_of k -> external ys k = false.
Proof. intros k E. unfold thing_of in E. unfold external. destruct (nth_error ys k) as [y|]; [|reflexivity]. destruct (y_kind y) eqn:K; try discriminate; reflexivity. Qed.

(** The shapes of names: public ones with and without dots, private ones. *)
Inductive shape : thing -> text -> Prop :=
| sh_main : shape OfMain (dot :: m)
| sh_exported : forall k, In k ds -> exported ys k = true -> shape (thing_of k) (m ++ dot :: name_of ys k)
| sh_external : forall k, In k ds -> exported ys k = false -> external ys k = true -> shape (thing_of k) (name_of ys k)
| sh_private : forall k, In k ds -> exported ys k = false -> external ys k = false -> shape (thing_of k) (name_of ys k)
| sh_renamed : forall k d, In k ds -> exported ys k = false -> external ys k = false -> d <> [] -> Forall digit d -> shape (thing_of k) (name_of ys k ++ dot :: d)
| sh_exit : binary = true -> shape OfExit (u "exit")
| sh_under : forall t r, right_thing t -> (t = OfStart \/ exists f, t = OfHelper f) -> tname t = chr "_" :: r -> ~ In dot r -> shape t (chr "_" :: r).

Lemma shape_of : forall t n, right_thing t -> good_name t n -> shape t n.
Proof.
  intros t n R G. destruct t as [|k|k|f| | |]; cbn [right_thing] in R.
  - destruct G as [->|(B & _)]; [constructor|discriminate].
  - destruct R as (I & E). unfold good_name in G. cbn [tname tprivate] in G. unfold planned in G. rewrite E. pose proof (thing_var _ E) as XE. destruct (exported ys k) eqn:X.
    + destruct G as [->|(B & _)]; [now constructor|discriminate].
    + destruct G as [->|(_ & d & -> & Dn & Fd)]; [now apply sh_private|now apply sh_renamed].
  - destruct R as (I & E). unfold good_name in G. cbn [tname tprivate] in G. unfold planned in G. rewrite E. destruct (exported ys k) eqn:X.
    + destruct G as [->|(B & _)]; [now constructor|]. rewrite orb_true_r in B. discriminate.
    + rewrite orb_false_r in G. destruct (external ys k) eqn:XE.
      * destruct G as [->|(B & _)]; [now apply sh_external|discriminate].
      * destruct G as [->|(_ & d & -> & Dn & Fd)]; [now apply sh_private|now apply sh_renamed].
  - destruct G as [->|(B & _)]; [|discriminate]. destruct f; try (exfalso; eapply R; reflexivity);
      (apply sh_under; [exact R|right; eexists; reflexivity|reflexivity|]); intro Z; cbn in Z; repeat destruct Z as [Z|Z]; try discriminate; exact Z.
  - destruct G as [->|(B & _)]; [|discriminate]. apply sh_under; [exact R|now left|reflexivity|]. intro Z; cbn in Z; repeat destruct Z as [Z|Z]; try discriminate; exact Z.
  - destruct G as [->|(B & _)]; [now constructor|discriminate].
  - destruct R.
Qed.

Lemma exit_no_dot : ~ In dot (u "exit").
Proof. intro Z. cbn in Z. repeat destruct Z as [Z|Z]; try discriminate; exact Z. Qed.
Lemma simple_not_under : forall n r, simple n -> n <> chr "_" :: r.
Proof. intros n r S E. destruct (simple_head _ S) as (c & q & E' & L). apply letter_not in L as (L & _). congruence. Qed.
Lemma under_no_dot : forall r, ~ In dot r -> ~ In dot (chr "_" :: r).
Proof. intros r NI [Z|Z]; [discriminate|contradiction]. Qed.
Lemma main_not : forall n, simple n -> dot :: m <> m ++ dot :: n.
Proof. intros n S E. apply (f_equal (@List.length N)) in E. rewrite app_length in E. cbn [List.length] in E. destruct (simple_head _ S) as (c & q & -> & _). cbn [List.length] in E. lia. Qed.
Lemma simple_not_digits : forall n d, simple n -> Forall digit d -> n <> d.
Proof. intros n d S F E. destruct (simple_head _ S) as (c & q & E' & L). apply letter_not in L as (_ & _ & L). subst. apply Forall_inv in F. contradiction. Qed.
Lemma helper_inj : forall t t' r, (t = OfStart \/ exists f, t = OfHelper f) -> (t' = OfStart \/ exists f, t' = OfHelper f) -> right_thing t -> right_thing t' ->
  tname t = chr "_" :: r -> tname t' = chr "_" :: r -> t = t'.
Proof.
  intros t t' r [->|(f & ->)] [->|(f' & ->)] R R' E E'; auto; rewrite <- E in E'; clear E.
  - destruct f'; discriminate.
  - destruct f; discriminate.
  - destruct f; try (exfalso; eapply R; reflexivity); destruct f'; try (exfalso; eapply R'; reflexivity); try discriminate; reflexivity.
Qed.

Lemma shape_plain : forall t n, shape t n -> ~ In dot n ->
  (exists k, t = thing_of k /\ In k ds /\ exported ys k = false /\ n = name_of ys k) \/
  (binary = true /\ t = OfExit /\ n = u "exit") \/
  (exists r, (t = OfStart \/ exists f, t = OfHelper f) /\ right_thing t /\ tname t = chr "_" :: r /\ n = chr "_" :: r).
Proof.
  intros t n S D. destruct S as [|k I X|k I X Y|k I X Y|k d I X Y Dn Fd|B|t r R T0 N0 D0].
  - exfalso. apply D. now left.
  - exfalso. apply D, in_dot.
  - left. exists k. auto.
  - left. exists k. auto.
  - exfalso. apply D, in_dot.
  - right. left. auto.
  - right. right. exists r. auto.
Qed.
Lemma shape_dotted : forall t n, shape t n -> In dot n ->
  (t = OfMain /\ n = dot :: m) \/
  (exists k, t = thing_of k /\ In k ds /\ exported ys k = true /\ n = m ++ dot :: name_of ys k) \/
  (exists k d, t = thing_of k /\ In k ds /\ exported ys k = false /\ external ys k = false /\ n = name_of ys k ++ dot :: d /\ d <> [] /\ Forall digit d).
Proof.
  intros t n S D. destruct S as [|k I X|k I X Y|k I X Y|k d I X Y Dn Fd|B|t r R T0 N0 D0].
  - left. auto.
  - right. left. exists k. auto.
  - exfalso. exact (simple_no_dot _ (PL _ I) D).
  - exfalso. exact (simple_no_dot _ (PL _ I) D).
  - right. right. exists k, d. repeat split; assumption.
  - exfalso. exact (exit_no_dot D).
  - exfalso. exact (under_no_dot _ D0 D).
Qed.
Lemma no_clash : forall t t' n, right_thing t -> tprivate t = false -> right_thing t' -> good_name t' n -> n = tname t -> t' = t.
Proof.
  intros t t' n R P R' G E. assert (S' := shape_of _ _ R' G). assert (S0 : shape t n) by (apply shape_of; [exact R|left; exact E]).
  assert (NP : forall k, t = thing_of k -> exported ys k = false -> external ys k = true).
  { intros k -> X. unfold thing_of in P. destruct (nth_error ys k) as [y|]; [destruct (y_kind y)|]; cbn [tprivate] in P; rewrite ?X, ?orb_false_r in P; try discriminate. now apply negb_false_iff in P. }
  clear G E R P R'. destruct (in_dec N.eq_dec dot n) as [D|D].
  - destruct (shape_dotted _ _ S0 D) as [(-> & E)|[(k & T1 & I & X & E)|(k & d & T1 & I & X & Y & E & Dn & Fd)]].
    + destruct (shape_dotted _ _ S' D) as [(-> & E')|[(k' & T1' & I' & X' & E')|(k' & d' & T1' & I' & X' & Y' & E' & Dn' & Fd')]].
      * reflexivity.
      * exfalso. apply (main_not _ (PL _ I')). congruence.
      * exfalso. destruct (simple_head _ (PL _ I')) as (c & q & EN & L). rewrite EN, E in E'. injection E' as Ec _. apply letter_not in L. symmetry in Ec. tauto.
    + destruct (shape_dotted _ _ S' D) as [(-> & E')|[(k' & T1' & I' & X' & E')|(k' & d' & T1' & I' & X' & Y' & E' & Dn' & Fd')]].
      * exfalso. apply (main_not _ (PL _ I)). congruence.
      * rewrite E in E'. apply app_inv_head in E'. injection E' as E'. rewrite T1, T1'. f_equal. symmetry. exact (A1 _ _ I I' X X' E').
      * exfalso. rewrite E in E'. apply last_dot in E' as (_ & E'); [|exact (simple_no_dot _ (PL _ I))|exact (digits_no_dot _ Fd')]. exact (simple_not_digits _ _ (PL _ I) Fd' E').
    + exfalso. rewrite (NP _ T1 X) in Y. discriminate.
  - destruct (shape_plain _ _ S0 D) as [(k & T1 & I & X & E)|[(B & -> & E)|(r & T1 & R & N0 & E)]];
      destruct (shape_plain _ _ S' D) as [(k' & T1' & I' & X' & E')|[(B' & -> & E')|(r' & T1' & R' & N0' & E')]].
    + rewrite T1, T1'. f_equal. symmetry. apply (A2 _ _ I I' (NP _ T1 X) X'). congruence.
    + exfalso. apply (A3 B' _ I X). congruence.
    + exfalso. apply (simple_not_under _ r' (PL _ I)). congruence.
    + exfalso. apply (A3 B _ I' X'). congruence.
    + reflexivity.
    + exfalso. rewrite E in E'. discriminate.
    + exfalso. apply (simple_not_under _ r (PL _ I')). congruence.
    + exfalso. rewrite E in E'. discriminate.
    + assert (r = r') by congruence. subst r'. now apply (helper_inj _ _ r).
Qed.

(** * What is added *)

Record sound (T : list entry) : Prop := mksound {
  so_names : NoDup (map en_name T);
  so_all : forall e, In e T -> right_thing (en_thing e) /\ en_shim e = false /\ en_private e = tprivate (en_thing e) /\
    en_body e = tbody (en_thing e) /\ good_name (en_thing e) (en_name e) /\ en_fun e = tfun (en_thing e) }.

Lemma add_sound : forall t T, sound T -> right_thing t -> ~ In t (map en_thing T) ->
  exists n, add fresh t (tname t) (tfun t) (tprivate t) (tbody t) T = T ++ [mkentry t n (tfun t) (tprivate t) (tbody t) false] /\
    sound (T ++ [mkentry t n (tfun t) (tprivate t) (tbody t) false]).
Proof.
  intros t T [ND AL] R NI. unfold add. set (n := if taken (tname t) T then _ else _). exists n. split; [reflexivity|].
  assert (NN : ~ In n (map en_name T) /\ good_name t n).
  { subst n. destruct (taken (tname t) T) eqn:TK.
    - destruct (RN (map en_name T) (tname t)) as (F1 & F2). split; [exact F1|]. right. split; [|exact F2].
      destruct (tprivate t) eqn:P; [reflexivity|]. exfalso. assert (IN : In (tname t) (map en_name T)).
      { unfold taken in TK. apply existsb_exists in TK as (e & I & Q). apply text_eqb_eq in Q. rewrite <- Q. now apply in_map. }
      apply in_map_iff in IN as (e & Q & I). destruct (AL e I) as (Re & _ & _ & _ & G & _). apply NI. rewrite <- (no_clash t (en_thing e) (en_name e) R P Re G Q). now apply in_map.
    - split; [now apply taken_false|now left]. }
  destruct NN as (NN & G). split.
  - rewrite map_app. apply app_nodup; [exact ND|constructor; [intros []|constructor]|]. intros x X [<-|[]]. contradiction.
  - intros e I. apply in_app_iff in I as [I|[<-|[]]]; [exact (AL e I)|]. cbn [en_thing en_shim en_private en_body en_name en_fun]. repeat split; assumption.
Qed.

Lemma linkage_ok : forall k y, In k ds -> nth_error ys k = Some y -> linkage_name filename y (exported ys k) = Ok (planned k).
Proof.
  intros k y I E. unfold linkage_name, planned. assert (NM : name_of ys k = y_name y) by (unfold name_of; now rewrite E). rewrite NM.
  pose proof (PL _ I) as S0. rewrite NM in S0. destruct (exported ys k); [|reflexivity].
  apply mangle_ok; [exact HB|exact NZ|now apply simple_nz|exact FM|]. destruct S0 as (_ & _ & F). exact F.
Qed.

Definition index (t : thing) : list nat := match t with OfVar k | OfFun k => [k] | _ => [] end.
Lemma index_of : forall k, index (thing_of k) = [k].
Proof. intro k. unfold thing_of. destruct (nth_error ys k) as [y|]; [destruct (y_kind y)|]; reflexivity. Qed.
Definition helper (f : callee) : Prop := forall k, f <> CSym k.

Lemma right_of : forall k, In k ds -> right_thing (thing_of k).
Proof.
  intros k I. assert (X : thing_of k = OfVar k \/ thing_of k = OfFun k) by (unfold thing_of; destruct (nth_error ys k) as [y|]; [destruct (y_kind y)|]; auto).
  destruct X as [X|X]; rewrite X; split; auto.
Qed.
Lemma add_act_decl : forall k T, In k ds -> sound T -> ~ In (thing_of k) (map en_thing T) -> (forall f, act_of ys k <> ActCall f) ->
  exists T', add_act fresh ys filename (act_of ys k) T = Ok T' /\ sound T' /\ map en_thing T' = map en_thing T ++ [thing_of k].
Proof.
  intros k T I S0 NI NC. pose proof (right_of _ I) as R. assert (L := fun y => linkage_ok k y I). unfold act_of in *. unfold thing_of in *.
  destruct (nth_error ys k) as [y|] eqn:E; [|exfalso; now apply (NC CIntPow)]. specialize (L y eq_refl).
  assert (XE : exported ys k = match y_kind y with KVar v => v_exported v | KFunc f => f_export f | _ => false end) by (unfold exported; now rewrite E).
  assert (XT : external ys k = match y_kind y with KFunc f => f_external f | _ => false end) by (unfold external; now rewrite E).
  destruct (y_kind y) as [v|f|z|z] eqn:K; try (exfalso; now apply (NC CIntPow)).
  all: cbn [add_act]; unfold Model_Sem.deref; rewrite E; cbn [bind]; rewrite K, <- XE, L; cbn [bind].
  - destruct (add_sound _ T S0 R NI) as (n & EQ & S1). cbn [tname tprivate tbody tfun] in EQ. rewrite EQ. eexists. split; [reflexivity|]. split; [exact S1|]. now rewrite map_app.
  - destruct (add_sound _ T S0 R NI) as (n & EQ & S1). cbn [tname tprivate tbody tfun] in EQ. rewrite <- XT, EQ. eexists. split; [reflexivity|]. split; [exact S1|]. now rewrite map_app.
Qed.
Lemma add_helper_sound : forall f T, helper f -> sound T -> sound (add_helper fresh f T) /\
  (forall t, In t (map en_thing (add_helper fresh f T)) <-> In t (map en_thing T) \/ t = OfHelper f) /\
  flat_map index (map en_thing (add_helper fresh f T)) = flat_map index (map en_thing T).
Proof.
  intros f T HF S0. unfold add_helper. destruct (existsb _ T) eqn:E.
  - apply existsb_exists in E as (e & I & E). apply andb_true_iff in E as (_ & E). apply text_eqb_eq in E. destruct S0 as [ND AL]. destruct (AL e I) as (Re & _ & _ & _ & G & _).
    pose proof (no_clash (OfHelper f) _ _ HF eq_refl Re G E) as Q. split; [now constructor|]. split; [|reflexivity]. intro t. split; [auto|]. intros [X| ->]; [exact X|]. rewrite <- Q. now apply in_map.
  - assert (NI : ~ In (OfHelper f) (map en_thing T)).
    { intro X. apply in_map_iff in X as (e & Q & I). destruct S0 as [ND AL]. destruct (AL e I) as (_ & _ & _ & _ & G & FN). rewrite Q in G, FN. destruct G as [G|(G & _)]; [|discriminate].
      assert (Z : existsb (fun e => en_fun e && text_eqb (en_name e) (helper_text f)) T = true) by (apply existsb_exists; exists e; split; [exact I|]; rewrite FN, G; apply text_eqb_refl). congruence. }
    destruct (add_sound (OfHelper f) T S0 HF NI) as (n & EQ & S1). cbn [tname tprivate tbody tfun] in EQ. rewrite EQ. split; [exact S1|]. rewrite map_app. cbn [map en_thing]. split.
    + intro t. rewrite in_app_iff. cbn [In]. intuition congruence.
    + rewrite flat_map_app. cbn [flat_map index]. apply app_nil_r.
Qed.

Lemma act_cases : forall k, (forall f, act_of ys k <> ActCall f) \/ act_of ys k = ActCall CIntPow.
Proof. intro k. unfold act_of. destruct (nth_error ys k) as [y|]; [destruct (y_kind y)|]; auto; left; discriminate. Qed.
Lemma add_acts_sound : forall log ks T, decls log = map (act_of ys) ks -> incl ks ds -> NoDup (flat_map index (map en_thing T) ++ ks) -> sound T ->
  exists T', add_acts fresh ys filename log T = Ok T' /\ sound T' /\
    forall t, In t (map en_thing T') <-> In t (map en_thing T) \/ (exists k, In k ks /\ t = thing_of k) \/ exists f, helper f /\ In (ActCall f) log /\ t = OfHelper f.
Proof.
  induction log as [|a log IH]; intros ks T DE IN ND S0.
  - destruct ks; [|discriminate]. exists T. split; [reflexivity|]. split; [exact S0|]. intro t. split; [auto|]. intros [X|[(k & [] & _)|(f & _ & [] & _)]]. exact X.
  - assert (CASE : (exists f, a = ActCall f) \/ forall f, a <> ActCall f) by (destruct a; [right; discriminate|right; discriminate|left; eauto]).
    destruct CASE as [(f & ->)|NC].
    + change (decls (ActCall f :: log)) with (decls log) in DE. assert (HC : helper f \/ exists k, f = CSym k) by (destruct f; [right; eauto|left; intro; discriminate..]).
      destruct HC as [HF|(k & ->)].
      * destruct (add_helper_sound f T HF S0) as (S1 & TH & IX).
        assert (EA : add_act fresh ys filename (ActCall f) T = Ok (add_helper fresh f T)) by (destruct f; [exfalso; eapply HF; reflexivity|reflexivity..]).
        destruct (IH ks (add_helper fresh f T) DE IN) as (T' & E & S2 & TH'); [now rewrite IX|exact S1|]. exists T'. cbn [add_acts]. rewrite EA. cbn [bind]. split; [exact E|]. split; [exact S2|].
        intro t. rewrite TH', TH. split.
        -- intros [[X|X]|[X|(g & G1 & G2 & G3)]]; auto; right; right; [exists f; split; [exact HF|split; [now left|exact X]]|exists g; split; [exact G1|split; [now right|exact G3]]].
        -- intros [X|[X|(g & G1 & [G2|G2] & G3)]]; auto; [left; right; congruence|right; right; eauto].
      * destruct (IH ks T DE IN ND S0) as (T' & E & S2 & TH'). exists T'. cbn [add_acts add_act bind]. split; [exact E|]. split; [exact S2|].
        intro t. rewrite TH'. split.
        -- intros [X|[X|(g & G1 & G2 & G3)]]; auto. right. right. exists g. split; [exact G1|]. split; [now right|exact G3].
        -- intros [X|[X|(g & G1 & [G2|G2] & G3)]]; auto; [exfalso; apply (G1 k); congruence|right; right; eauto].
    + assert (DA : decls (a :: log) = a :: decls log) by (destruct a; [reflexivity|reflexivity|exfalso; eapply NC; reflexivity]). rewrite DA in DE.
      destruct ks as [|k ks]; [discriminate|]. cbn [map] in DE. injection DE as -> DE.
      assert (NT : ~ In (thing_of k) (map en_thing T)).
      { intro X. apply nodup_app in ND as (_ & _ & DJ). apply (DJ k); [|now left]. apply in_flat_map. exists (thing_of k). split; [exact X|]. rewrite index_of. now left. }
      destruct (add_act_decl k T (IN k (or_introl eq_refl)) S0 NT NC) as (T1 & E1 & S1 & TH).
      destruct (IH ks T1 DE) as (T' & E & S2 & TH').
      * intros x X. apply IN. now right.
      * rewrite TH, flat_map_app. cbn [flat_map]. rewrite index_of, <- !app_assoc. exact ND.
      * exact S1.
      * exists T'. cbn [add_acts]. rewrite E1. cbn [bind]. split; [exact E|]. split; [exact S2|]. intro t. rewrite TH', TH, in_app_iff. cbn [In]. split.
        -- intros [[X|[X|[]]]|[(j & J1 & J2)|(g & G1 & G2 & G3)]]; auto; right; [left; exists k; auto|left; exists j; auto|right; exists g; auto].
        -- intros [X|[(j & [<-|J1] & J2)|(g & G1 & [G2|G2] & G3)]]; auto; [right; left; eauto|exfalso; exact (NC g G2)|right; right; eauto].
Qed.

(** What a sound module defines and asks for. *)
Lemma sound_defines : forall T n, sound T -> defines T n <-> exists t, In t (map en_thing T) /\ tprivate t = false /\ tbody t = true /\ n = tname t.
Proof.
  intros T n [ND AL]. split.
  - intros (e & I & P & B & E). destruct (AL e I) as (_ & _ & Pe & Be & G & _). exists (en_thing e). split; [now apply in_map|]. rewrite Pe in P. rewrite Be in B. split; [exact P|]. split; [exact B|].
    destruct G as [G|(G & _)]; congruence.
  - intros (t & I & P & B & E). apply in_map_iff in I as (e & <- & I). destruct (AL e I) as (_ & _ & Pe & Be & G & _). exists e. split; [exact I|]. split; [congruence|]. split; [congruence|].
    destruct G as [G|(G & _)]; congruence.
Qed.
Lemma sound_asks : forall H (M : module H) T n, sound T -> asks M T n <->
  exists t, In t (map en_thing T) /\ tprivate t = false /\ tbody t = false /\ n = tname t /\ match t with OfFun k => Spec_Link.calls M (CSym k) | _ => True end.
Proof.
  intros H M T n [ND AL]. split.
  - intros (e & I & P & B & U & E). destruct (AL e I) as (_ & SH & Pe & Be & G & _). exists (en_thing e). split; [now apply in_map|]. rewrite Pe in P. rewrite Be in B. split; [exact P|]. split; [exact B|].
    split; [destruct G as [G|(G & _)]; congruence|]. destruct U as [U|U]; [congruence|exact U].
  - intros (t & I & P & B & E & U). apply in_map_iff in I as (e & <- & I). destruct (AL e I) as (_ & _ & Pe & Be & G & _). exists e. split; [exact I|]. split; [congruence|]. split; [congruence|].
    split; [right; exact U|]. destruct G as [G|(G & _)]; congruence.
Qed.

Lemma thing_defined : forall k, In k ds -> tprivate (thing_of k) = false /\ tbody (thing_of k) = true <-> exported ys k = true.
Proof.
  intros k I. pose proof (XX _ I) as X. unfold thing_of, exported, external in *. destruct (nth_error ys k) as [y|] eqn:E.
  - destruct (y_kind y) as [v|f|z|z] eqn:K; cbn [tprivate tbody]; unfold exported, external; rewrite E, K; [destruct (v_exported v)|destruct (f_export f), (f_external f)| |]; cbn in *; intuition discriminate.
  - cbn [tprivate tbody]; unfold exported, external; rewrite E. cbn. intuition discriminate.
Qed.
Lemma thing_asked : forall k, In k ds -> tprivate (thing_of k) = false /\ tbody (thing_of k) = false <-> external ys k = true.
Proof.
  intros k I. pose proof (XX _ I) as X. unfold thing_of, exported, external in *. destruct (nth_error ys k) as [y|] eqn:E.
  - destruct (y_kind y) as [v|f|z|z] eqn:K; cbn [tprivate tbody]; unfold exported, external; rewrite E, K; [destruct (v_exported v)|destruct (f_export f), (f_external f)| |]; cbn in *; intuition discriminate.
  - cbn [tprivate tbody]; unfold exported, external; rewrite E. cbn. intuition discriminate.
Qed.
Lemma thing_name : forall k, tname (thing_of k) = planned k.
Proof. intro k. unfold thing_of. destruct (nth_error ys k) as [y|]; [destruct (y_kind y)|]; reflexivity. Qed.
Lemma external_fun : forall k, external ys k = true -> thing_of k = OfFun k.
Proof. intros k X. unfold external, thing_of in *. destruct (nth_error ys k) as [y|]; [|discriminate]. destruct (y_kind y); try discriminate. reflexivity. Qed.

Lemma all_defines : forall C b T, sound T ->
  (forall t, In t (map en_thing T) <-> t = OfMain \/ (exists k, In k ds /\ t = thing_of k) \/ (exists f, helper f /\ C f /\ t = OfHelper f) \/ b = true /\ (t = OfStart \/ t = OfExit)) ->
  forall n, defines T n <-> n = dot :: m \/ (exists k, In k ds /\ exported ys k = true /\ n = m ++ dot :: name_of ys k) \/ b = true /\ n = u "_start".
Proof.
  intros C b T S0 TH n. rewrite (sound_defines T n S0). split.
  - intros (t & I & P & B & ->). apply TH in I as [->|[(k & I & ->)|[(f & _ & _ & ->)|(Eb & [->| ->])]]]; try discriminate B.
    + now left.
    + right. left. exists k. assert (X : exported ys k = true) by (apply thing_defined; auto). split; [exact I|]. split; [exact X|]. rewrite thing_name. unfold planned. now rewrite X.
    + right. right. auto.
  - intros [->|[(k & I & X & ->)|(Eb & ->)]].
    + exists OfMain. rewrite TH. auto.
    + exists (thing_of k). apply (thing_defined k I) in X as X'. split; [apply TH; right; left; eauto|]. split; [apply X'|]. split; [apply X'|]. rewrite thing_name. unfold planned. now rewrite X.
    + exists OfStart. split; [apply TH; do 3 right; auto|]. cbn [tprivate tbody tname]. auto.
Qed.
Lemma all_asks : forall H (M : module H) C b T, sound T ->
  (forall t, In t (map en_thing T) <-> t = OfMain \/ (exists k, In k ds /\ t = thing_of k) \/ (exists f, helper f /\ C f /\ t = OfHelper f) \/ b = true /\ (t = OfStart \/ t = OfExit)) ->
  forall n, asks M T n <-> (exists k, In k ds /\ external ys k = true /\ Spec_Link.calls M (CSym k) /\ n = name_of ys k) \/ (exists f, helper f /\ C f /\ n = helper_text f) \/ b = true /\ n = u "exit".
Proof.
  intros H M C b T S0 TH n. rewrite (sound_asks H M T n S0). split.
  - intros (t & I & P & B & -> & U). apply TH in I as [->|[(k & I & ->)|[(f & F1 & F2 & ->)|(Eb & [->| ->])]]]; try discriminate B.
    + left. exists k. assert (X : external ys k = true) by (apply thing_asked; auto). split; [exact I|]. split; [exact X|]. rewrite (external_fun _ X) in U. split; [exact U|].
      rewrite thing_name. unfold planned. pose proof (XX _ I) as Y. rewrite X, andb_true_r in Y. now rewrite Y.
    + right. left. exists f. auto.
    + right. right. auto.
  - intros [(k & I & X & U & ->)|[(f & F1 & F2 & ->)|(Eb & ->)]].
    + exists (thing_of k). apply (thing_asked k I) in X as X'. split; [apply TH; right; left; eauto|]. split; [apply X'|]. split; [apply X'|]. split.
      * rewrite thing_name. unfold planned. pose proof (XX _ I) as Y. rewrite X, andb_true_r in Y. now rewrite Y.
      * now rewrite (external_fun _ X).
    + exists (OfHelper f). split; [apply TH; right; right; left; eauto|]. auto.
    + exists OfExit. split; [apply TH; do 3 right; auto|]. cbn [tprivate tbody tname]. auto.
Qed.
End Module.

(** * Linking *)

Section Linking.
Variable fresh : list text -> text -> text.
Hypothesis RN : renames fresh.

Lemma unique : forall (T : list entry) a b, NoDup (map en_name T) -> In a T -> In b T -> en_name a = en_name b -> a = b.
Proof.
  induction T as [|x T IH]; intros a b ND A B E; [destruct A|]. cbn [map] in ND. inversion ND as [|? ? NI ND']; subst. destruct A as [->|A], B as [->|B]; auto.
  - exfalso. apply NI. rewrite E. now apply in_map.
  - exfalso. apply NI. rewrite <- E. now apply in_map.
Qed.
Lemma rename_nodup : forall n T, NoDup (map en_name T) -> In n (map en_name T) -> NoDup (map en_name (rename fresh n T)) /\ ~ In n (map en_name (rename fresh n T)).
Proof.
  intros n T. unfold rename. destruct (RN (map en_name T) n) as (NF & _). generalize dependent (fresh (map en_name T) n). intros x NF ND IN.
  assert (NX : x <> n) by (intros ->; contradiction). clear IN.
  assert (G : NoDup (map en_name (map (fun e => if text_eqb (en_name e) n then mkentry (en_thing e) x (en_fun e) (en_private e) (en_body e) (en_shim e) else e) T)) /\
     ~ In n (map en_name (map (fun e => if text_eqb (en_name e) n then mkentry (en_thing e) x (en_fun e) (en_private e) (en_body e) (en_shim e) else e) T)) /\
     forall y, In y (map en_name (map (fun e => if text_eqb (en_name e) n then mkentry (en_thing e) x (en_fun e) (en_private e) (en_body e) (en_shim e) else e) T)) -> In y (map en_name T) \/ y = x /\ In n (map en_name T)).
  { induction T as [|e T IH]; [split; [constructor|]; split; [intros []|intros y []]|]. cbn [map] in *. inversion ND as [|? ? NI ND']; subst.
    destruct IH as (I1 & I2 & I3); [intro Z; apply NF; now right|exact ND'|]. destruct (text_eqb (en_name e) n) eqn:Q.
    - apply text_eqb_eq in Q. cbn [en_name]. split; [|split].
      + constructor; [|exact I1]. intro Z. destruct (I3 _ Z) as [Z'|(_ & Z')]; [apply NF; now right|apply NI; now rewrite Q].
      + intros [Z|Z]; [congruence|contradiction].
      + intros y [<-|Y]; [right; split; [reflexivity|now left]|]. destruct (I3 _ Y) as [Z|(Z1 & Z2)]; [left; now right|right; split; [exact Z1|now right]].
    - assert (QN : en_name e <> n) by (intro Z; rewrite Z, text_eqb_refl in Q; discriminate). split; [|split].
      + constructor; [|exact I1]. intro Z. destruct (I3 _ Z) as [Z'|(Z' & _)]; [contradiction|]. apply NF. left. exact Z'.
      + intros [Z|Z]; [contradiction|contradiction].
      + intros y [<-|Y]; [left; now left|]. destruct (I3 _ Y) as [Z|(Z1 & Z2)]; [left; now right|right; split; [exact Z1|now right]]. }
  tauto.
Qed.

Lemma link_one_ok : forall H (M : module H) n fn body T, NoDup (map en_name T) -> ~ defines T n ->
  exists T', link_one fresh n fn body T = Some T' /\ NoDup (map en_name T') /\
    (forall x, defines T' x <-> defines T x \/ body = true /\ x = n) /\
    (forall x, asks M T' x <-> asks M T x /\ x <> n \/ body = false /\ x = n).
Proof.
  intros H M n fn body T ND DF. unfold link_one. set (new := mkentry OfShim n fn false body true).
  assert (ADD : forall T0, NoDup (map en_name T0) -> ~ In n (map en_name T0) ->
     (forall e, en_private e = false -> In e T0 <-> In e T /\ en_name e <> n) -> NoDup (map en_name (T0 ++ [new])) /\
     (forall x, defines (T0 ++ [new]) x <-> defines T x \/ body = true /\ x = n) /\
     (forall x, asks M (T0 ++ [new]) x <-> asks M T x /\ x <> n \/ body = false /\ x = n)).
  { intros T0 ND0 NI EQ. split; [|split].
    - rewrite map_app. apply app_nodup; [exact ND0|constructor; [intros []|constructor]|]. intros x X [<-|[]]. contradiction.
    - intro x. split.
      + intros (e & I & P & B & E). apply in_app_iff in I as [I|[<-|[]]].
        * left. exists e. apply EQ in I as (I & _); [|exact P]. auto.
        * right. auto.
      + intros [(e & I & P & B & E)|(B & ->)].
        * exists e. split; [|auto]. apply in_app_iff. left. apply EQ; [exact P|]. split; [exact I|]. intro Z. apply DF. exists e. auto.
        * exists new. split; [apply in_app_iff; right; now left|]. auto.
    - intro x. split.
      + intros (e & I & P & B & U & E). apply in_app_iff in I as [I|[<-|[]]].
        * left. apply EQ in I as (I & Z); [|exact P]. split; [exists e; auto|congruence].
        * right. auto.
      + intros [((e & I & P & B & U & E) & Z)|(B & ->)].
        * exists e. split; [|auto]. apply in_app_iff. left. apply EQ; [exact P|]. split; [exact I|congruence].
        * exists new. split; [apply in_app_iff; right; now left|]. split; [reflexivity|]. split; [exact B|]. split; [now left|reflexivity]. }
  destruct (List.find _ T) as [e0|] eqn:F.
  - apply find_some in F as (I0 & N0). apply text_eqb_eq in N0.
    assert (UN : forall e, In e T -> en_name e = n -> e = e0) by (intros e I E; apply (unique T); auto; congruence).
    destruct (en_private e0) eqn:P0.
    + eexists. split; [reflexivity|]. destruct (rename_nodup n T ND) as (R1 & R2); [rewrite <- N0; now apply in_map|]. apply ADD; [exact R1|exact R2|].
      intros e P. unfold rename. rewrite in_map_iff. split.
      * intros (e1 & E & I). destruct (text_eqb (en_name e1) n) eqn:Q.
        -- apply text_eqb_eq in Q. rewrite (UN e1 I Q) in E. rewrite <- E in P. cbn in P. congruence.
        -- subst e1. split; [exact I|]. intro Z. rewrite Z, text_eqb_refl in Q. discriminate.
      * intros (I & Z). exists e. destruct (text_eqb (en_name e) n) eqn:Q; [apply text_eqb_eq in Q; contradiction|]. auto.
    + assert (B0 : en_body e0 = false) by (destruct (en_body e0) eqn:B; [|reflexivity]; exfalso; apply DF; exists e0; auto). rewrite B0, andb_false_r.
      eexists. split; [reflexivity|]. set (g := fun e => if text_eqb (en_name e) n then _ else e).
      assert (NM : map en_name (map g T) = map en_name T).
      { rewrite map_map. apply map_ext. intro e. unfold g. destruct (text_eqb (en_name e) n) eqn:Q; [|reflexivity]. apply text_eqb_eq in Q. now rewrite Q. }
      assert (GI : forall e, In e (map g T) <-> (In e T /\ en_name e <> n) \/ e = g e0).
      { intro e. rewrite in_map_iff. split.
        - intros (e1 & E & I). destruct (text_eqb (en_name e1) n) eqn:Q.
          + apply text_eqb_eq in Q. rewrite (UN e1 I Q) in E. right. congruence.
          + left. unfold g in E. rewrite Q in E. subst e1. split; [exact I|]. intro Z. rewrite Z, text_eqb_refl in Q. discriminate.
        - intros [(I & Z)| ->]; [exists e; split; [|exact I]|exists e0; auto]. unfold g. destruct (text_eqb (en_name e) n) eqn:Q; [apply text_eqb_eq in Q; contradiction|reflexivity]. }
      assert (G0 : g e0 = mkentry (en_thing e0) n (if body then fn else en_fun e0) false body true) by (unfold g; rewrite N0, text_eqb_refl, B0, orb_false_r; reflexivity).
      split; [now rewrite NM|]. split.
      * intro x. split.
        -- intros (e & I & P & B & E). apply GI in I as [(I & Z)| ->]; [left; exists e; auto|]. rewrite G0 in B, E. right. auto.
        -- intros [(e & I & P & B & E)|(B & ->)].
           ++ exists e. split; [apply GI; left; split; [exact I|]|auto]. intro Z. apply DF. exists e. auto.
           ++ exists (g e0). split; [apply GI; now right|]. rewrite G0. auto.
      * intro x. split.
        -- intros (e & I & P & B & U & E). apply GI in I as [(I & Z)| ->]; [left; split; [exists e; auto|congruence]|]. rewrite G0 in B, E. right. auto.
        -- intros [((e & I & P & B & U & E) & Z)|(B & ->)].
           ++ exists e. split; [apply GI; left; split; [exact I|congruence]|auto].
           ++ exists (g e0). split; [apply GI; now right|]. rewrite G0. split; [reflexivity|]. split; [exact B|]. split; [now left|reflexivity].
  - eexists. split; [reflexivity|]. assert (NI : ~ In n (map en_name T)).
    { intro X. apply in_map_iff in X as (e & E & I). apply (find_none _ _ F) in I. rewrite E, text_eqb_refl in I. discriminate. }
    apply ADD; [exact ND|exact NI|]. intros e P. split; [|tauto]. intro I. split; [exact I|]. intros <-. apply NI. now apply in_map.
Qed.

(** The names that skull/shim.ll defines. *)
Definition shim_names : list text := [u "_strcmp"; u "_int_pow"; u "_float_pow"].
Lemma builtins_ok : forall H (M : module H) T, NoDup (map en_name T) -> (forall n, In n (u "pow" :: shim_names) -> ~ defines T n) ->
  exists T', insert_builtins fresh T = Some T' /\ NoDup (map en_name T') /\
    (forall x, defines T' x <-> defines T x \/ In x shim_names) /\
    (forall x, asks M T' x <-> asks M T x /\ ~ In x shim_names \/ x = u "pow").
Proof.
  intros H M T ND NF. unfold insert_builtins.
  destruct (link_one_ok H M (u "_float_pow") false true T ND) as (T1 & E1 & ND1 & D1 & K1); [apply NF; cbn; auto|]. rewrite E1.
  destruct (link_one_ok H M (u "_strcmp") true true T1 ND1) as (T2 & E2 & ND2 & D2 & K2); [rewrite D1; intros [Z|(_ & Z)]; [revert Z; apply NF; cbn; auto|discriminate Z]|]. rewrite E2.
  destruct (link_one_ok H M (u "pow") true false T2 ND2) as (T3 & E3 & ND3 & D3 & K3); [rewrite D2, D1; intros [[Z|(_ & Z)]|(_ & Z)]; [revert Z; apply NF; cbn; auto|discriminate Z..]|]. rewrite E3.
  destruct (link_one_ok H M (u "_int_pow") true true T3 ND3) as (T4 & E4 & ND4 & D4 & K4); [rewrite D3, D2, D1; intros [[[Z|(_ & Z)]|(_ & Z)]|(Z & _)]; [revert Z; apply NF; cbn; auto|discriminate Z..]|]. rewrite E4.
  exists T4. split; [reflexivity|]. split; [exact ND4|]. split.
  - intro x. rewrite D4, D3, D2, D1. unfold shim_names. cbn [In]. split.
    + intros [[[[X|(_ & X)]|(_ & X)]|(Z & _)]|(_ & X)]; [auto|symmetry in X; auto|symmetry in X; auto|discriminate Z|symmetry in X; auto].
    + intros [X|[X|[X|[X|[]]]]]; [intuition|symmetry in X; intuition..].
  - intro x. rewrite K4, K3, K2, K1. unfold shim_names. cbn [In]. split.
    + intros [([([([(X & N1)|(Z & _)] & N2)|(Z & _)] & N3)|(_ & X)] & N4)|(Z & _)]; try discriminate Z; [|now right]. left. split; [exact X|].
      intros [Y|[Y|[Y|[]]]]; symmetry in Y; contradiction.
    + intros [(X & NI)|X].
      * left. split; [|intro Y; symmetry in Y; tauto]. destruct (text_eq_dec x (u "pow")) as [Q|Q]; [now right|]. left. split; [|exact Q]. left. split; [|intro Y; symmetry in Y; tauto]. left.
        split; [exact X|intro Y; symmetry in Y; tauto].
      * subst x. left. split; [now right|discriminate].
Qed.
End Linking.

(** * Programs *)

Lemma accepted_module_names : forall H fold w src ts tree s l debug M fresh filename m binary,
  Spec_Pipeline.lexed src ts -> Spec_Token.source src -> Spec_Token.fits src -> Spec_Sem.accepted w src ts tree s l -> Spec_Sem.no_call_blocks tree -> Spec_Sem.few_arguments tree ->
  renames fresh -> has_base filename (m ++ u ".sk") -> nz m -> Spec_Names.fits m ->
  gen_module H fold (s_syms s) debug l = Ok M -> apart (s_syms s) binary l ->
  exists log T, gen_log H fold (s_syms s) debug l = Ok log /\ module_names fresh (s_syms s) filename binary log = Ok (Some T) /\ NoDup (map en_name T) /\
    (forall n, defines T n <-> n = dot :: m \/
       (exists k, In k (declared (s_syms s) l) /\ exported (s_syms s) k = true /\ n = m ++ dot :: name_of (s_syms s) k) \/
       binary = true /\ In n (u "_start" :: shim_names)) /\
    (forall n, asks M T n <->
       (exists k, In k (declared (s_syms s) l) /\ external (s_syms s) k = true /\ Spec_Link.calls M (CSym k) /\ n = name_of (s_syms s) k) \/
       (binary = false /\ exists f, helper f /\ Spec_Link.calls M f /\ n = helper_text f) \/
       binary = true /\ In n [u "exit"; u "pow"]).
Proof.
  intros H fold w src ts tree s l debug M fresh filename m binary LX SO FI A NC FA RN HB NZ FM G [A1 A2 A3].
  assert (LG : exists log, gen_log H fold (s_syms s) debug l = Ok log).
  { unfold gen_module in G. unfold gen_log. destruct (gen_tree _ _ _ _ _ _) as [(g, fl)|]; [|discriminate]. cbn [bind]. eauto. }
  destruct LG as (log & LG). destruct (module_adds _ _ _ _ _ _ _ G LG) as (DE & CA).
  assert (DN := declared_names _ _ _ _ _ _ LX SO FI A NC FA).
  assert (ND : NoDup (declared (s_syms s) l)) by (apply declared_nodup; exact (Proof_Sem8.numbers_l _ _ _ _ _ _ A)).
  set (ys := s_syms s) in *. set (ds := declared ys l) in *.
  assert (PL : forall k, In k ds -> simple (name_of ys k)).
  { intros k I. destruct (DN k I) as ((N1 & N2 & N3) & _). split; [exact N1|]. split; [exact N2|]. unfold Spec_Names.fits. unfold Spec_Token.fits in FI. lia. }
  assert (XX : forall k, In k ds -> exported ys k && external ys k = false) by (intros k I; apply DN, I).
  assert (S0 : sound ys m binary ds [mkentry OfMain (dot :: m) true false true false]).
  { constructor; [constructor; [intros []|constructor]|]. intros e [<-|[]]. repeat split; try reflexivity. now left. }
  destruct (add_acts_sound fresh ys filename m binary ds RN HB NZ FM PL A1 A2 A3 log ds [mkentry OfMain (dot :: m) true false true false] DE (incl_refl _) ND S0) as (T & EA & S1 & TH).
  assert (TH1 : forall t, In t (map en_thing T) <-> t = OfMain \/ (exists k, In k ds /\ t = thing_of ys k) \/ exists f, helper f /\ Spec_Link.calls M f /\ t = OfHelper f).
  { intro t. rewrite TH. cbn [map en_thing In]. split.
    - intros [[<-|[]]|[X|(f & F1 & F2 & F3)]]; auto. right. right. exists f. rewrite <- CA. auto.
    - intros [->|[X|(f & F1 & F2 & F3)]]; auto. right. right. exists f. rewrite CA. auto. }
  clear TH. exists log. unfold module_names. rewrite (main_name_ok _ _ HB NZ FM). cbn [bind]. rewrite EA. cbn [bind]. destruct binary.
  - assert (NS : forall t, t = OfStart \/ t = OfExit -> ~ In t (map en_thing T)).
    { intros t Z I. apply TH1 in I as [->|[(k & _ & ->)|(f & _ & _ & ->)]]; [destruct Z; discriminate| |destruct Z; discriminate].
      assert (IX := index_of ys k). destruct Z as [Z|Z]; rewrite Z in IX; discriminate. }
    destruct (add_sound fresh ys m true ds RN PL A1 A2 A3 OfStart T S1 I) as (n1 & E1 & S2); [apply NS; auto|]. cbn [tname tfun tprivate tbody] in E1.
    destruct (add_sound fresh ys m true ds RN PL A1 A2 A3 OfExit _ S2 eq_refl) as (n2 & E2 & S3).
    { rewrite map_app. intro Z. apply in_app_iff in Z as [Z|[Z|[]]]; [revert Z; apply NS; auto|discriminate Z]. }
    cbn [tname tfun tprivate tbody] in E2. cbn [tfun tprivate tbody] in E1, S3. cbn [tfun tprivate tbody] in E2. unfold add_start_shim. rewrite E1, E2. clear E1 E2. set (T2 := (T ++ _) ++ _) in *.
    assert (TH2 : forall t, In t (map en_thing T2) <-> t = OfMain \/ (exists k, In k ds /\ t = thing_of ys k) \/ (exists f, helper f /\ Spec_Link.calls M f /\ t = OfHelper f) \/ true = true /\ (t = OfStart \/ t = OfExit)).
    { intro t. subst T2. rewrite !map_app, !in_app_iff, TH1. cbn [map en_thing In]. split.
      - intros [[[X|[X|X]]|[X|[]]]|[X|[]]]; auto; symmetry in X; auto 7.
      - intros [X|[X|[X|(_ & [X|X])]]]; auto 7; symmetry in X; auto 7. }
    assert (D2 := all_defines ys m true ds XX _ true T2 S3 TH2). assert (K2 := all_asks ys m true ds XX H M _ true T2 S3 TH2).
    assert (NF : forall n, In n (u "pow" :: shim_names) -> ~ defines T2 n).
    { intros n I Z. apply D2 in Z as [->|[(k & _ & _ & ->)|(_ & ->)]].
      - assert (X : In dot (dot :: m)) by now left. destruct I as [I|[I|[I|[I|[]]]]]; discriminate I.
      - assert (X : In dot (m ++ dot :: name_of ys k)) by apply in_dot. destruct I as [I|[I|[I|[I|[]]]]]; rewrite <- I in X; cbn in X; repeat destruct X as [X|X]; try discriminate X; exact X.
      - destruct I as [I|[I|[I|[I|[]]]]]; discriminate I. }
    destruct (builtins_ok fresh RN H M T2 (so_names _ _ _ _ _ S3) NF) as (T' & E & ND' & D' & K'). exists T'. rewrite E. split; [exact LG|]. split; [reflexivity|]. split; [exact ND'|]. split.
    + intro n. rewrite D', D2. cbn [In]. split.
      * intros [[X|[X|(_ & X)]]|X]; auto; right; right; split; auto.
      * intros [X|[X|(_ & [X|X])]]; auto; left; right; right; auto.
    + intro n. rewrite K', K2. cbn [In]. split.
      * intros [([X|[(f & F1 & F2 & ->)|(_ & X)]] & NI)|X].
        -- left. exact X.
        -- exfalso. apply NI. destruct f; [exfalso; eapply F1; reflexivity|cbn; auto..].
        -- right. right. split; auto.
        -- right. right. split; auto.
      * intros [(k & I & X & U & ->)|[(Z & _)|(_ & [X|[X|[]]])]]; [|discriminate Z| |].
        -- left. split; [left; exists k; auto|]. intros [Y|[Y|[Y|[]]]]; symmetry in Y; exact (simple_not_under _ _ (PL _ I) Y).
        -- left. subst n. split; [right; right; auto|]. intros [Y|[Y|[Y|[]]]]; discriminate Y.
        -- right. auto.
  - assert (TH2 : forall t, In t (map en_thing T) <-> t = OfMain \/ (exists k, In k ds /\ t = thing_of ys k) \/ (exists f, helper f /\ Spec_Link.calls M f /\ t = OfHelper f) \/ false = true /\ (t = OfStart \/ t = OfExit)).
    { intro t. rewrite TH1. intuition discriminate. }
    exists T. split; [exact LG|]. split; [reflexivity|]. split; [exact (so_names _ _ _ _ _ S1)|]. split.
    + intro n. rewrite (all_defines ys m false ds XX _ false T S1 TH2). intuition discriminate.
    + intro n. rewrite (all_asks ys m false ds XX H M _ false T S1 TH2). intuition discriminate.
Qed.
