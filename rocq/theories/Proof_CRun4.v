(** States of the program and states of the C program. *)
From Coq Require Import List Arith NArith ZArith Bool Lia Ascii String.
From Verif Require Import Base Model_Token Model_Literal Model_Parse Model_Sem Spec_Sem Spec_Sem2 Model_CGen Spec_C Spec_CGen Spec_CProg Spec_CBack Spec_Run
  Spec_LLVM Spec_CRun Spec_CBehave Proof_Sem8 Proof_LLVM Proof_LLVM3 Proof_CRun Proof_CRun2 Proof_CRun3.
Import ListNotations.
Open Scope list_scope.
Open Scope nat_scope.

Lemma map_inj : forall {A B} (f : A -> B) r a b, NoDup (map f r) -> In a r -> In b r -> f a = f b -> a = b.
Proof.
  intros A B f r a b. induction r as [|z r IH]; intros N1 I J E; [destruct I|]. cbn [map] in N1. inversion N1 as [|? ? X Y]; subst. destruct I as [->|I]; destruct J as [->|J]; auto.
  - exfalso. apply X. rewrite E. now apply in_map.
  - exfalso. apply X. rewrite <- E. now apply in_map.
Qed.
Lemma text_eqb_spec : forall a b, reflect (a = b) (text_eqb a b).
Proof. intros a b. destruct (text_eqb a b) eqn:E; constructor; [now apply text_eqb_eq|now apply text_eqb_neq]. Qed.

Section Frames.
Variable H : host.
Local Notation frame := (Spec_CRun.frame H).
Local Notation in_frame := (in_frame H).
Local Notation in_frames := (in_frames H).
Local Notation set_frame := (set_frame H).
Local Notation set_frames := (set_frames H).
Local Notation set_val := (set_val H).

Lemma in_frame_set : forall (f : frame) x v y, in_frame (set_frame f x v) y = if text_eqb x y then option_map (fun k => set_val k v) (in_frame f y) else in_frame f y.
Proof.
  intros f x v y. induction f as [|(z, k) f IH]; cbn [Spec_CRun.set_frame Spec_CRun.in_frame]; [now destruct (text_eqb x y)|].
  destruct (text_eqb_spec z x) as [->|NE]; cbn [Spec_CRun.in_frame].
  - destruct (text_eqb_spec x y) as [->|NE2]; reflexivity.
  - destruct (text_eqb_spec z y) as [->|NE2]; [|exact IH]. destruct (text_eqb_spec x y) as [->|_]; [now elim NE|reflexivity].
Qed.
Lemma in_frames_set : forall (fs : list frame) x v y, in_frames (set_frames fs x v) y = if text_eqb x y then option_map (fun k => set_val k v) (in_frames fs y) else in_frames fs y.
Proof.
  intros fs x v y. induction fs as [|f fs IH]; cbn [Spec_CRun.set_frames Spec_CRun.in_frames]; [now destruct (text_eqb x y)|].
  destruct (in_frame f x) as [k|] eqn:E; cbn [Spec_CRun.in_frames].
  - rewrite in_frame_set. destruct (text_eqb_spec x y) as [->|NE]; [|reflexivity]. rewrite E. reflexivity.
  - rewrite IH. destruct (text_eqb_spec x y) as [->|NE]; [|reflexivity]. rewrite E. reflexivity.
Qed.
Definition fnames (c : cstate H) : list (list text) := map (map fst) (c_frames H c).
Lemma set_frame_names : forall (f : frame) x v, map fst (set_frame f x v) = map fst f.
Proof. intros f x v. induction f as [|(z, k) f IH]; cbn [Spec_CRun.set_frame map fst]; [reflexivity|]. destruct (text_eqb z x); cbn [map fst]; [reflexivity|]. now rewrite IH. Qed.
Lemma set_frames_names : forall (fs : list frame) x v, map (map fst) (set_frames fs x v) = map (map fst) fs.
Proof.
  intros fs x v. induction fs as [|f fs IH]; cbn [Spec_CRun.set_frames map]; [reflexivity|].
  destruct (in_frame f x); cbn [map]; [now rewrite set_frame_names|now rewrite IH].
Qed.
Lemma store_names : forall c x v, fnames (store H c x v) = fnames c.
Proof.
  intros c x v. unfold store, fnames. destruct (in_frames (c_frames H c) x); cbn [c_frames]; [apply set_frames_names|]. now destruct (c_glob H c x).
Qed.
Lemma in_frame_names : forall (f : frame) x, in_frame f x = None <-> ~ In x (map fst f).
Proof.
  intros f x. induction f as [|(z, k) f IH]; cbn [Spec_CRun.in_frame map fst In]; [tauto|]. destruct (text_eqb_spec z x) as [->|NE].
  - split; [discriminate|]. intro X. now elim X; left.
  - rewrite IH. split; [intros A [B|B]; [now elim NE|now apply A]|intros A B; apply A; now right].
Qed.
Lemma in_frames_names : forall (fs : list frame) x, in_frames fs x = None <-> ~ In x (List.concat (map (map fst) fs)).
Proof.
  intros fs x. induction fs as [|f fs IH]; cbn [Spec_CRun.in_frames map List.concat]; [cbn; tauto|]. rewrite in_app_iff. destruct (in_frame f x) as [k|] eqn:E.
  - split; [discriminate|]. intro X. exfalso. assert (Y : in_frame f x = None) by (apply in_frame_names; tauto). rewrite E in Y. discriminate Y.
  - apply in_frame_names in E. rewrite IH. tauto.
Qed.
End Frames.

Section States.
Variable H : host.
Variable env : cctx.
Variable l : list tnode.
Local Notation ys := (ce_syms env).
Local Notation name_of := (name_of env).
Local Notation val := (sv (h_float H)).
Local Notation cstate := (cstate H).
Local Notation c_glob := (c_glob H).
Local Notation c_frames := (c_frames H).
Local Notation c_out := (c_out H).
Local Notation in_frames := (in_frames H).
Local Notation rst := (rst H).
Local Notation r_glob := (r_glob H).
Local Notation r_loc := (r_loc H).
Local Notation r_funs := (r_funs H).
Local Notation in_c := (in_c H).
Local Notation isvar := (isvar env).
Local Notation isfun := (isfun env).
Local Notation vtype := (vtype env).
Local Notation initial := (initial env).
Local Notation hoisted := (hoisted l).
Local Notation own := (own l).
Local Notation top_of := (top_of l).
Local Notation scope := (scope env l).
Hypothesis ND : NoDup (flat_map numbers l).
Hypothesis PT : forall n k ks, In n l -> tn_pay n = XProto k ks -> tn_type n = N_FUNCTION_PROTO.
Hypothesis HN : NoDup (map name_of (flat_map outside l)).

Lemma hoisted_name : forall j k, hoisted j -> hoisted k -> name_of j = name_of k -> j = k.
Proof. intros j k J K E. exact (map_inj name_of _ j k HN J K E). Qed.
Lemma scope_name : forall cx e j k, scope cx e -> In j e -> In k e -> name_of j = name_of k -> j = k.
Proof. intros cx e j k S0 J K E. exact (map_inj name_of _ j k (sc_names _ _ _ _ S0) J K E). Qed.
Lemma hoisted_dec : forall k, {hoisted k} + {~ hoisted k}.
Proof. intro k. apply (in_dec Nat.eq_dec). Qed.
Lemma callable_hoisted : forall k, callable env l k -> hoisted k.
Proof. intros k (n & ks & _ & _ & A & P & _). apply (hoisted_is l PT). right. eauto. Qed.
Lemma local_own : forall cx e k, scope cx e -> In k e -> isvar k -> ~ hoisted k -> own cx k.
Proof. intros cx e k S0 I V NH. destruct (sc_vars _ _ _ _ S0 k I V) as [O|T]; [exact O|]. exfalso. apply NH. exact (top_hoisted l PT _ _ T). Qed.

(** * The relation *)

(** The value of a variable that belongs to the function (or main program) that runs. *)
Definition mine (cx : option nat) (s : rst) (k : nat) : option val := match cx with None => r_glob s k | Some _ => local H s k end.
Definition glob_is (c : cstate) (k : nat) (v : val) : Prop := exists cl, c_glob c (name_of k) = Some cl /\ k_val H cl = in_c v.
(** The initial value of a variable outside of functions. *)
Definition starts (k : nat) (v : val) : Prop := exists cx n y, home l cx n /\ tn_pay n = XDef k y /\ initial k true /\ forall s, eval H ys (c_exact1 H) (c_exact2 H) s y v s.

Record R (cx : option nat) (e : list nat) (s : rst) (c : cstate) : Prop := {
  R_frames : c_frames c <> [];
  R_out : c_out c = r_out H s;
  R_dom : match cx with
          | None => r_loc s = None /\ forall k, r_glob s k <> None -> In k e /\ own None k
          | Some f => (exists g, r_loc s = Some g /\ forall k, g k <> None -> In k e /\ own (Some f) k) /\ forall k, r_glob s k <> None -> own None k
          end;
  R_shape : forall k, isvar k -> hoisted k -> exists cl, c_glob c (name_of k) = Some cl /\ k_type H cl = c_type (vtype k) /\
    (k_const H cl = true -> mutable ys k = false /\ initial k true);
  R_top : forall k v, top_of None k -> r_glob s k = Some v -> glob_is c k v;
  R_ftop : forall f k v, cx = Some f -> top_of (Some f) k -> local H s k = Some v -> glob_is c k v;
  R_const : forall k v, starts k v -> mutable ys k = false \/ cx = None /\ top_of None k /\ ~ In k e -> glob_is c k v;
  R_loc : forall k, In k e -> isvar k -> own cx k -> ~ hoisted k -> exists cl, in_frames (c_frames c) (name_of k) = Some cl /\ k_type H cl = c_type (vtype k) /\
    (k_const H cl = true -> mutable ys k = false) /\ forall v, mine cx s k = Some v -> k_val H cl = in_c v;
  R_names : forall x, in_frames (c_frames c) x <> None -> exists k, In k e /\ isvar k /\ own cx k /\ ~ hoisted k /\ name_of k = x;
  R_funs : forall k ps body, lookup (r_funs s) k = Some (ps, body) -> exists n, In n l /\ tn_pay n = XProto k ps /\ tn_child n = body /\ is_external ys k = false }.

(** What may change: shared variables that are defined, and variables outside that belong to
    functions in A. *)
Definition changes (A : nat -> Prop) (s : rst) (c c' : cstate) : Prop := forall x, c_glob c' x = c_glob c x \/
  (exists j, name_of j = x /\ shared env l j /\ r_glob s j <> None) \/
  (exists g j, name_of j = x /\ top_of (Some g) j /\ initial j false /\ A g).
Record kept (A : nat -> Prop) (s s' : rst) (c c' : cstate) : Prop := {
  kp_glob : forall k, ~ shared env l k -> r_glob s' k = r_glob s k;
  kp_dom : forall k, r_glob s' k = None <-> r_glob s k = None;
  kp_chg : changes A s c c' }.
Lemma kept_refl : forall A s c, kept A s s c c.
Proof. intros A s c. constructor; [reflexivity|reflexivity|]. intro x. now left. Qed.
Lemma kept_trans : forall A s s1 s2 c c1 c2, kept A s s1 c c1 -> kept A s1 s2 c1 c2 -> kept A s s2 c c2.
Proof.
  intros A s s1 s2 c c1 c2 [A1 A2 A3] [B1 B2 B3]. constructor.
  - intros k N1. now rewrite B1, A1.
  - intro k. now rewrite B2, A2.
  - intro x. destruct (B3 x) as [E|[(j & E & SH & D)|X]]; [|right; left; exists j|right; right; exact X].
    + rewrite E. apply A3.
    + split; [exact E|]. split; [exact SH|]. intro Z. apply D. now apply A2.
Qed.
Lemma kept_more : forall (A B : nat -> Prop) s s' c c', (forall g j, top_of (Some g) j -> initial j false -> A g -> B g) -> kept A s s' c c' -> kept B s s' c c'.
Proof.
  intros A B s s' c c' AB [A1 A2 A3]. constructor; auto. intro x. destruct (A3 x) as [E|[X|(g & j & E & T & F & I)]]; [now left|right; now left|].
  right; right. exists g, j. repeat (split; [assumption|]). exact (AB g j T F I).
Qed.

(** * Reading *)

Lemma unframed : forall cx e s c k, R cx e s c -> scope cx e -> In k e -> hoisted k \/ ~ isvar k -> in_frames (c_frames c) (name_of k) = None.
Proof.
  intros cx e s c k RR S0 I D. destruct (in_frames (c_frames c) (name_of k)) as [cl|] eqn:E; [|reflexivity]. exfalso.
  destruct (R_names _ _ _ _ RR (name_of k)) as (j & J & V & O & NH & N1); [congruence|]. assert (j = k) by exact (scope_name _ _ _ _ S0 J I N1). subst j. tauto.
Qed.
Lemma unnamed : forall cx e s c x, R cx e s c -> ~ In x (map name_of e) -> in_frames (c_frames c) x = None.
Proof.
  intros cx e s c x RR N1. destruct (in_frames (c_frames c) x) as [cl|] eqn:E; [|reflexivity]. exfalso.
  destruct (R_names _ _ _ _ RR x) as (j & J & _ & _ & _ & E2); [congruence|]. apply N1. rewrite <- E2. now apply in_map.
Qed.
Lemma read_cell : forall cx e s c k v, R cx e s c -> scope cx e -> In k e -> isvar k -> read H s k = Some v -> exists cl, find H c (name_of k) = Some cl /\ k_val H cl = in_c v.
Proof.
  intros cx e s c k v RR S0 I V E. unfold find. destruct (hoisted_dec k) as [HO|NH].
  - rewrite (unframed _ _ _ _ _ RR S0 I (or_introl HO)). destruct cx as [f|].
    + destruct (R_dom _ _ _ _ RR) as ((g & EL & DL) & DG). unfold read in E. destruct (local H s k) as [v'|] eqn:EK.
      * assert (O : own (Some f) k) by (unfold local in EK; rewrite EL in EK; apply (DL k); congruence).
        inversion E; subst v'. apply (R_ftop _ _ _ _ RR f k v eq_refl (own_top l ND PT _ _ O HO) EK).
      * assert (O : own None k) by (apply DG; congruence). exact (R_top _ _ _ _ RR k v (own_top l ND PT _ _ O HO) E).
    + destruct (R_dom _ _ _ _ RR) as (EL & DG). unfold read, local in E. rewrite EL in E.
      assert (O : own None k) by (apply DG; congruence). exact (R_top _ _ _ _ RR k v (own_top l ND PT _ _ O HO) E).
  - pose proof (local_own _ _ _ S0 I V NH) as O. destruct (R_loc _ _ _ _ RR k I V O NH) as (cl & -> & _ & _ & VL). exists cl. split; [reflexivity|]. apply VL.
    destruct cx as [f|]; unfold mine, read in *.
    + destruct (R_dom _ _ _ _ RR) as ((g & EL & DL) & DG). destruct (local H s k) as [v'|]; [exact E|]. exfalso. apply (own_apart l ND f k); [apply DG; congruence|exact O].
    + destruct (R_dom _ _ _ _ RR) as (EL & DG). unfold local in E. now rewrite EL in E.
Qed.
Lemma typed_cell : forall cx e s c k, R cx e s c -> scope cx e -> In k e -> isvar k -> exists cl, find H c (name_of k) = Some cl /\ k_type H cl = c_type (vtype k) /\
  (k_const H cl = true -> mutable ys k = false /\ (hoisted k -> initial k true)).
Proof.
  intros cx e s c k RR S0 I V. unfold find. destruct (hoisted_dec k) as [HO|NH].
  - rewrite (unframed _ _ _ _ _ RR S0 I (or_introl HO)). destruct (R_shape _ _ _ _ RR k V HO) as (cl & A & B & C). exists cl. split; [exact A|]. split; [exact B|]. intro K. split; [|intros _]; now apply C.
  - pose proof (local_own _ _ _ S0 I V NH) as O. destruct (R_loc _ _ _ _ RR k I V O NH) as (cl & -> & B & C & _). exists cl. split; [reflexivity|]. split; [exact B|].
    intro K. split; [now apply C|]. intro HO. contradiction.
Qed.

(** * Storing *)

Definition put_global (c : cstate) (k : nat) (w : cval H) : cstate := store H c (name_of k) w.
Lemma put_global_other : forall c k w x, in_frames (c_frames c) (name_of k) = None -> x <> name_of k -> c_glob (put_global c k w) x = c_glob c x.
Proof.
  intros c k w x E NE. unfold put_global, store. rewrite E. destruct (c_glob c (name_of k)); [|reflexivity]. cbn [Spec_CRun.c_glob]. unfold put_cell.
  destruct (text_eqb_spec x (name_of k)); [contradiction|reflexivity].
Qed.
Lemma put_global_frames : forall c k w, in_frames (c_frames c) (name_of k) = None -> c_frames (put_global c k w) = c_frames c /\ c_out (put_global c k w) = c_out c.
Proof. intros c k w E. unfold put_global, store. rewrite E. now destruct (c_glob c (name_of k)). Qed.
Lemma put_global_same : forall c k w cl, in_frames (c_frames c) (name_of k) = None -> c_glob c (name_of k) = Some cl -> c_glob (put_global c k w) (name_of k) = Some (set_val H cl w).
Proof.
  intros c k w cl E G. unfold put_global, store. rewrite E, G. cbn [Spec_CRun.c_glob]. unfold put_cell. now destruct (text_eqb_spec (name_of k) (name_of k)).
Qed.

Lemma put_same : forall {A} (f : nat -> option A) k v, put f k v k = Some v.
Proof. intros A f k v. unfold put. now rewrite Nat.eqb_refl. Qed.
Lemma put_other : forall {A} (f : nat -> option A) k v j, j <> k -> put f k v j = f j.
Proof. intros A f k v j NE. unfold put. now apply Nat.eqb_neq in NE as ->. Qed.

(** A variable outside of functions gets the value v in both worlds. *)
Lemma put_hoisted : forall cx e e' s c k v s' c', R cx e s c -> hoisted k -> isvar k ->
  c_frames c' = c_frames c -> c_out c' = c_out c -> (forall x, x <> name_of k -> c_glob c' x = c_glob c x) ->
  (exists cl cl', c_glob c (name_of k) = Some cl /\ c_glob c' (name_of k) = Some cl' /\ k_const H cl' = k_const H cl /\ k_type H cl' = k_type H cl /\ k_val H cl' = in_c v) ->
  (forall w, starts k w -> mutable ys k = false -> w = v) -> In k e' ->
  e' = e \/ e' = k :: e ->
  r_funs s' = r_funs s -> r_out H s' = r_out H s ->
  (r_glob s' = put (r_glob s) k v /\ r_loc s' = r_loc s /\ top_of None k \/
   exists f g, cx = Some f /\ r_glob s' = r_glob s /\ r_loc s = Some g /\ r_loc s' = Some (put g k v) /\ top_of (Some f) k) ->
  R cx e' s' c'.
Proof.
  intros cx e e' s c k v s' c' RR HO V GF GO GX (cl0 & cl1 & C0 & C1 & C2 & C3 & C4) MU IE EE EF EO UP.
  assert (GK : glob_is c' k v) by (exists cl1; auto).
  assert (GN : forall j, hoisted j -> j <> k -> c_glob c' (name_of j) = c_glob c (name_of j)).
  { intros j HJ NE. apply GX. intro E. apply NE. exact (hoisted_name _ _ HJ HO E). }
  assert (GJ : forall j w, hoisted j -> j <> k -> glob_is c j w -> glob_is c' j w).
  { intros j w HJ NE (cl & A & B). exists cl. split; [|exact B]. now rewrite GN. }
  assert (INE : incl e e') by (destruct EE as [-> | ->]; [apply incl_refl|apply incl_tl, incl_refl]).
  assert (LE : forall j, In j e' -> j <> k -> In j e) by (intros j J NE; destruct EE as [-> | ->]; [exact J|destruct J as [->|J]; [now elim NE|exact J]]).
  constructor.
  - rewrite GF. apply RR.
  - rewrite GO, EO. apply RR.
  - destruct cx as [f|].
    + destruct (R_dom _ _ _ _ RR) as ((g & EL & DL) & DG). destruct UP as [(U1 & U2 & T)|(f' & g' & EC & U1 & U2 & U3 & T)].
      * split; [exists g; split; [congruence|intros j J; destruct (DL j J) as (X & Y); split; [now apply INE|exact Y]]|]. intros j J. rewrite U1 in J.
        destruct (Nat.eq_dec j k) as [->|NE]; [exact (top_own l _ _ T)|]. rewrite put_other in J by exact NE. now apply DG.
      * inversion EC; subst f'. rewrite EL in U2. inversion U2; subst g'. split; [|now rewrite U1]. exists (put g k v). split; [exact U3|]. intros j J.
        destruct (Nat.eq_dec j k) as [->|NE]; [split; [exact IE|exact (top_own l _ _ T)]|]. rewrite put_other in J by exact NE. destruct (DL j J) as (X & Y). split; [now apply INE|exact Y].
    + destruct (R_dom _ _ _ _ RR) as (EL & DG). destruct UP as [(U1 & U2 & T)|(f' & g' & EC & _)]; [|discriminate EC]. split; [congruence|]. intros j J. rewrite U1 in J.
      destruct (Nat.eq_dec j k) as [->|NE]; [split; [exact IE|exact (top_own l _ _ T)]|]. rewrite put_other in J by exact NE. destruct (DG j J). split; [now apply INE|assumption].
  - intros j VJ HJ. destruct (Nat.eq_dec j k) as [->|NE].
    + destruct (R_shape _ _ _ _ RR k VJ HJ) as (cl & A & B & C). rewrite C0 in A. inversion A; subst cl. exists cl1. split; [exact C1|]. split; [congruence|]. rewrite C2. exact C.
    + destruct (R_shape _ _ _ _ RR j VJ HJ) as (cl & A & B). exists cl. split; [|exact B]. now rewrite GN.
  - intros j w T E. destruct (Nat.eq_dec j k) as [->|NE].
    + destruct UP as [(U1 & _)|(f' & g' & _ & _ & _ & _ & T')]; [rewrite U1, put_same in E; inversion E; subst w; exact GK|].
      exfalso. exact (own_apart l ND _ _ (top_own l _ _ T) (top_own l _ _ T')).
    + apply GJ; [exact (top_hoisted l PT _ _ T)|exact NE|]. apply (R_top _ _ _ _ RR j w T).
      destruct UP as [(U1 & _)|(f' & g' & _ & U1 & _)]; rewrite U1 in E; [now rewrite put_other in E by exact NE|exact E].
  - intros f j w EC T E. destruct (Nat.eq_dec j k) as [->|NE].
    + destruct UP as [(_ & _ & T')|(f' & g' & _ & _ & _ & U3 & _)]; [exfalso; exact (own_apart l ND _ _ (top_own l _ _ T') (top_own l _ _ T))|].
      unfold local in E. rewrite U3, put_same in E. inversion E; subst w. exact GK.
    + apply GJ; [exact (top_hoisted l PT _ _ T)|exact NE|]. apply (R_ftop _ _ _ _ RR f j w EC T). unfold local in *.
      destruct UP as [(_ & U2 & _)|(f' & g' & _ & _ & U2 & U3 & _)]; [now rewrite U2 in E|]. rewrite U3 in E. rewrite U2. now rewrite put_other in E by exact NE.
  - intros j w ST D. assert (HJ : hoisted j) by (destruct ST as (cx' & n & y & HM & P & _); apply (top_hoisted l PT cx'); exists n, y; auto).
    destruct (Nat.eq_dec j k) as [->|NE].
    + destruct D as [D|(_ & _ & D)]; [|contradiction]. now rewrite (MU w ST D).
    + apply GJ; [exact HJ|exact NE|]. apply (R_const _ _ _ _ RR j w ST). destruct D as [D|(D1 & D2 & D3)]; [now left|right]. split; [exact D1|]. split; [exact D2|]. intro X. apply D3. now apply INE.
  - intros j J VJ O NH. assert (NE : j <> k) by congruence. rewrite GF. destruct (R_loc _ _ _ _ RR j (LE j J NE) VJ O NH) as (cl & A & B & C & D). exists cl. split; [exact A|]. split; [exact B|]. split; [exact C|].
    intros w E. apply D. unfold mine in *. destruct cx as [f|].
    + unfold local in *. destruct UP as [(_ & U2 & _)|(f' & g' & _ & _ & U2 & U3 & _)]; [now rewrite U2 in E|]. rewrite U3 in E. rewrite U2. now rewrite put_other in E by exact NE.
    + destruct UP as [(U1 & _)|(f' & g' & EC & _)]; [|discriminate EC]. rewrite U1 in E. now rewrite put_other in E by exact NE.
  - intros x E. rewrite GF in E. destruct (R_names _ _ _ _ RR x E) as (j & J & X). exists j. split; [now apply INE|exact X].
  - intros j ps body E. rewrite EF in E. now apply (R_funs _ _ _ _ RR).
Qed.

(** A variable of a block gets the value v in both worlds. *)
Lemma put_inner : forall cx e e' s c k v s' c', R cx e s c -> scope cx e' -> ~ hoisted k -> isvar k -> own cx k ->
  c_frames c' <> [] -> c_out c' = c_out c -> c_glob c' = c_glob c -> (forall x, x <> name_of k -> in_frames (c_frames c') x = in_frames (c_frames c) x) ->
  (exists cl, in_frames (c_frames c') (name_of k) = Some cl /\ k_type H cl = c_type (vtype k) /\ (k_const H cl = true -> mutable ys k = false) /\ k_val H cl = in_c v) ->
  In k e' -> e' = e \/ e' = k :: e ->
  r_funs s' = r_funs s -> r_out H s' = r_out H s ->
  match cx with None => r_glob s' = put (r_glob s) k v /\ r_loc s' = r_loc s
  | Some f => exists g, r_glob s' = r_glob s /\ r_loc s = Some g /\ r_loc s' = Some (put g k v) end ->
  R cx e' s' c'.
Proof.
  intros cx e e' s c k v s' c' RR S0 NHK V O GF GO GG GX (cl1 & C1 & C2 & C3 & C4) IE EE EF EO UP.
  assert (INE : incl e e') by (destruct EE as [-> | ->]; [apply incl_refl|apply incl_tl, incl_refl]).
  assert (LE : forall j, In j e' -> j <> k -> In j e) by (intros j J NE; destruct EE as [-> | ->]; [exact J|destruct J as [->|J]; [now elim NE|exact J]]).
  assert (GN : forall j w, glob_is c j w -> glob_is c' j w) by (intros j w (cl & A & B); exists cl; now rewrite GG).
  assert (MI : forall j, j <> k -> mine cx s' j = mine cx s j).
  { intros j NE. destruct cx as [f|]; cbn [mine].
    - destruct UP as (g & _ & U2 & U3). unfold local. rewrite U2, U3. now apply put_other.
    - destruct UP as (U1 & _). rewrite U1. now apply put_other. }
  constructor.
  - exact GF.
  - rewrite GO, EO. apply RR.
  - destruct cx as [f|].
    + destruct (R_dom _ _ _ _ RR) as ((g & EL & DL) & DG). destruct UP as (g' & U1 & U2 & U3).
      rewrite EL in U2. inversion U2; subst g'. split; [|now rewrite U1]. exists (put g k v). split; [exact U3|]. intros j J.
      destruct (Nat.eq_dec j k) as [->|NE]; [split; [exact IE|exact O]|]. rewrite put_other in J by exact NE. destruct (DL j J) as (X & Y). split; [now apply INE|exact Y].
    + destruct (R_dom _ _ _ _ RR) as (EL & DG). destruct UP as (U1 & U2). split; [congruence|]. intros j J. rewrite U1 in J.
      destruct (Nat.eq_dec j k) as [->|NE]; [split; [exact IE|exact O]|]. rewrite put_other in J by exact NE. destruct (DG j J). split; [now apply INE|assumption].
  - intros j VJ HJ. rewrite GG. exact (R_shape _ _ _ _ RR j VJ HJ).
  - intros j w T E. apply GN. apply (R_top _ _ _ _ RR j w T). assert (NE : j <> k) by (intros ->; apply NHK; exact (top_hoisted l PT _ _ T)).
    destruct cx as [f|]; [destruct UP as (g & U1 & _); now rewrite U1 in E|]. destruct UP as (U1 & _). rewrite U1 in E. now rewrite put_other in E by exact NE.
  - intros f j w EC T E. apply GN. apply (R_ftop _ _ _ _ RR f j w EC T). assert (NE : j <> k) by (intros ->; apply NHK; exact (top_hoisted l PT _ _ T)).
    subst cx. pose proof (MI j NE) as Q. cbn [mine] in Q. now rewrite <- Q.
  - intros j w ST D. apply GN. apply (R_const _ _ _ _ RR j w ST). destruct D as [D|(D1 & D2 & D3)]; [now left|right]. split; [exact D1|]. split; [exact D2|]. intro X. apply D3. now apply INE.
  - intros j J VJ OJ NH. destruct (Nat.eq_dec j k) as [->|NE].
    + exists cl1. split; [exact C1|]. split; [exact C2|]. split; [exact C3|]. intros w E. rewrite C4. f_equal. destruct cx as [f|]; cbn [mine] in E.
      * destruct UP as (g & _ & _ & U3). unfold local in E. rewrite U3, put_same in E. congruence.
      * destruct UP as (U1 & _). rewrite U1, put_same in E. congruence.
    + rewrite GX; [|intro E; apply NE; exact (scope_name _ _ _ _ S0 J IE E)]. rewrite (MI j NE). exact (R_loc _ _ _ _ RR j (LE j J NE) VJ OJ NH).
  - intros x E. destruct (text_eqb_spec x (name_of k)) as [->|NE]; [exists k; auto|]. rewrite GX in E by exact NE. destruct (R_names _ _ _ _ RR x E) as (j & J & X). exists j. split; [now apply INE|exact X].
  - intros j ps body E. rewrite EF in E. now apply (R_funs _ _ _ _ RR).
Qed.

(** * Blocks *)

Lemma enter_block_R : forall cx e s c, R cx e s c -> R cx e s (enter_block H c).
Proof.
  intros cx e s c RR. constructor; try apply RR. discriminate.
Qed.

(** The names in frames: new ones in the innermost block only. *)
Definition grown (c c' : cstate) (new : list nat) : Prop := exists nn hd tl, fnames H c = hd :: tl /\ fnames H c' = (nn ++ hd) :: tl /\ incl nn (map name_of new).
Lemma grown_refl : forall c c', c_frames c <> [] -> fnames H c' = fnames H c -> grown c c' [].
Proof.
  intros c c' NE E. unfold grown. rewrite E. unfold fnames. destruct (c_frames c) as [|f fs]; [now elim NE|]. exists [], (map fst f), (map (map fst) fs). repeat split. intros x [].
Qed.
Lemma grown_trans : forall c c1 c2 a b, grown c c1 a -> grown c1 c2 b -> grown c c2 (b ++ a).
Proof.
  intros c c1 c2 a b (n1 & h1 & t1 & A1 & A2 & A3) (n2 & h2 & t2 & B1 & B2 & B3). rewrite A2 in B1. inversion B1; subst. exists (n2 ++ n1), h1, t2. split; [exact A1|].
  split; [rewrite B2; now rewrite <- app_assoc|]. rewrite map_app. intros x I. apply in_app_iff in I as [I|I]; apply in_or_app; [left; now apply B3|right; now apply A3].
Qed.
Lemma grown_names : forall c c1 c' a, fnames H c1 = fnames H c -> grown c1 c' a -> grown c c' a.
Proof. intros c c1 c' a E (n1 & h1 & t1 & A). exists n1, h1, t1. now rewrite <- E. Qed.

Lemma leave_names : forall c c2 new, grown (enter_block H c) c2 new -> fnames H (leave_block H c2) = fnames H c.
Proof.
  intros c c2 new (nn & hd & tl & A1 & A2 & _). unfold fnames in *. unfold enter_block in A1. cbn [Spec_CRun.c_frames map] in A1. inversion A1; subst.
  unfold leave_block. cbn [Spec_CRun.c_frames]. destruct (c_frames c2) as [|f fs]; [discriminate A2|]. cbn [map] in A2. inversion A2; subst. reflexivity.
Qed.
Lemma leave_block_R : forall cx e s c s2 c2 new, R cx e s c -> scope cx e -> R cx (new ++ e) s2 c2 -> scope cx (new ++ e) -> grown (enter_block H c) c2 new ->
  (forall k, In k new -> ~ hoisted k) -> R cx e (close H s s2) (leave_block H c2).
Proof.
  intros cx e s c s2 c2 new R1 S1 R2 S2 GR NH. pose proof (leave_names _ _ _ GR) as LN. destruct GR as (nn & hd & tl & A1 & A2 & A3).
  assert (FR : forall k, In k e -> in_frames (c_frames (leave_block H c2)) (name_of k) = in_frames (c_frames c2) (name_of k)).
  { intros k K. unfold leave_block. cbn [Spec_CRun.c_frames]. unfold fnames in *. unfold enter_block in A1. cbn [Spec_CRun.c_frames map] in A1. inversion A1; subst.
    destruct (c_frames c2) as [|f fs]; [discriminate A2|]. cbn [map] in A2. inversion A2 as [[E1 E2]]. cbn [List.tl Spec_CRun.in_frames].
    assert (E : in_frame H f (name_of k) = None); [|now rewrite E]. apply in_frame_names. rewrite E1, app_nil_r. intro I. apply A3 in I.
    pose proof (sc_names _ _ _ _ S2) as N1. rewrite map_app in N1. apply in_map_iff in I as (j & E3 & J). assert (j = k) by (apply (scope_name _ _ _ _ S2); [apply in_or_app; now left|apply in_or_app; now right|exact E3]).
    subst j. apply (in_map name_of) in J. clear - N1 J K. apply (in_map name_of) in K. induction (map name_of new) as [|x q IH]; [destruct J|]. cbn [app] in N1. inversion N1 as [|? ? X Y]; subst.
    destruct J as [->|J]; [|exact (IH J Y)]. apply X. apply in_or_app. now right. }
  constructor.
  - intro E. pose proof (R_frames _ _ _ _ R1) as F. unfold fnames in LN. rewrite E in LN. destruct (c_frames c); [now elim F|discriminate LN].
  - exact (R_out _ _ _ _ R2).
  - destruct cx as [f|]; cbn [close Spec_Run.r_loc Spec_Run.r_glob].
    + destruct (R_dom _ _ _ _ R1) as ((g & EL & DL) & DG). destruct (R_dom _ _ _ _ R2) as ((g2 & EL2 & DL2) & DG2). rewrite EL, EL2. split.
      * exists (outer g g2). split; [reflexivity|]. intros k K. apply DL. unfold outer in K. destruct (g k); [discriminate|now elim K].
      * intros k K. apply DG. unfold outer in K. destruct (r_glob s k); [discriminate|now elim K].
    + destruct (R_dom _ _ _ _ R1) as (EL & DG). rewrite EL. split; [reflexivity|]. intros k K. apply DG. unfold outer in K. destruct (r_glob s k); [discriminate|now elim K].
  - intros k V HO. exact (R_shape _ _ _ _ R2 k V HO).
  - intros k v T E. cbn [close Spec_Run.r_glob] in E. unfold outer in E. destruct (r_glob s k); [|discriminate E]. exact (R_top _ _ _ _ R2 k v T E).
  - intros f k v -> T E. apply (R_ftop _ _ _ _ R2 f k v eq_refl T). unfold local in *. cbn [close Spec_Run.r_loc] in E.
    destruct (R_dom _ _ _ _ R1) as ((g & EL & _) & _). destruct (R_dom _ _ _ _ R2) as ((g2 & EL2 & _) & _). rewrite EL, EL2 in E. rewrite EL2. unfold outer in E. destruct (g k); [exact E|discriminate E].
  - intros k v ST D. apply (R_const _ _ _ _ R2 k v ST). destruct D as [D|(D1 & D2 & D3)]; [now left|right]. split; [exact D1|]. split; [exact D2|]. intro X. apply in_app_iff in X as [X|X]; [|contradiction].
    apply (NH k X). exact (top_hoisted l PT _ _ D2).
  - intros k K V O NK. rewrite FR by exact K. destruct (R_loc _ _ _ _ R2 k (in_or_app _ _ _ (or_intror K)) V O NK) as (cl & B1 & B2 & B3 & B4). exists cl. split; [exact B1|]. split; [exact B2|]. split; [exact B3|].
    intros v E. apply B4. destruct cx as [f|]; cbn [mine] in *.
    + unfold local in *. cbn [close Spec_Run.r_loc] in E.
      destruct (R_dom _ _ _ _ R1) as ((g & EL & _) & _). destruct (R_dom _ _ _ _ R2) as ((g2 & EL2 & _) & _). rewrite EL, EL2 in E. rewrite EL2. unfold outer in E. destruct (g k); [exact E|discriminate E].
    + cbn [close Spec_Run.r_glob] in E. unfold outer in E. destruct (r_glob s k); [exact E|discriminate E].
  - intros x E. apply (R_names _ _ _ _ R1). intro X. apply E. apply in_frames_names in X. apply in_frames_names. unfold fnames in LN. now rewrite LN.
  - exact (R_funs _ _ _ _ R1).
Qed.
Lemma leave_block_kept : forall A s c s2 c2, kept A s s2 c c2 -> kept A s (close H s s2) c (leave_block H c2).
Proof.
  intros A s c s2 c2 [K1 K2 K3]. constructor.
  - intros k N1. cbn [close Spec_Run.r_glob]. unfold outer. destruct (r_glob s k) as [v|] eqn:E; [|reflexivity]. rewrite K1 by exact N1. exact E.
  - intro k. cbn [close Spec_Run.r_glob]. unfold outer. destruct (r_glob s k) as [v|] eqn:E; [|tauto]. rewrite K2, E. tauto.
  - exact K3.
Qed.

(** * Functions *)

Lemma bind_dom : forall ps (vs : list val) k, bind_all H ps vs k <> None -> In k ps.
Proof.
  induction ps as [|p ps IH]; intros vs k E; [now elim E|]. destruct vs as [|v vs]; [now elim E|]. cbn [bind_all] in E. destruct (Nat.eq_dec k p) as [->|NE]; [now left|].
  right. apply (IH vs). now rewrite put_other in E by exact NE.
Qed.
(** The frame of a call has the parameters with their values. *)
Definition framed (ks : list nat) (vs : list val) (fr : Spec_CRun.frame H) : Prop :=
  map fst fr = map name_of ks /\ forall k v, bind_all H ks vs k = Some v -> exists cl, in_frame H fr (name_of k) = Some cl /\ k_type H cl = c_type (vtype k) /\ k_const H cl = false /\ k_val H cl = in_c v.

Lemma enter_call_R : forall cx e s c f ks vs fr e0 n, R cx e s c -> In n l -> tn_pay n = XProto f ks -> List.length ks = List.length vs ->
  isfun f -> Forall isvar ks -> (forall k, In k e0 -> isvar k -> top_of None k) -> framed ks vs fr ->
  R (Some f) (rev ks ++ f :: e0) (enter_call H s ks vs) (enter_function H c fr).
Proof.
  intros cx e s c f ks vs fr e0 n RR IN P LEN IF VK E0 (FN & FV).
  assert (BD : forall ks0 vs0 k, List.length ks0 = List.length vs0 -> In k ks0 -> exists v, bind_all H ks0 vs0 k = Some v).
  { induction ks0 as [|p ps IH]; intros vs0 k L I; [destruct I|]. destruct vs0 as [|v vs0]; [discriminate L|]. cbn [bind_all]. destruct (Nat.eq_dec k p) as [->|NE]; [rewrite put_same; eauto|].
    rewrite put_other by exact NE. apply IH; [now injection L|]. destruct I as [->|I]; [now elim NE|exact I]. }
  assert (GD : forall k, r_glob s k <> None -> own None k) by (destruct cx as [g|]; [exact (proj2 (R_dom _ _ _ _ RR))|intros k K; exact (proj2 (proj2 (R_dom _ _ _ _ RR) k K))]).
  constructor.
  - discriminate.
  - exact (R_out _ _ _ _ RR).
  - cbn [enter_call Spec_Run.r_loc Spec_Run.r_glob]. split; [|exact GD]. exists (bind_all H ks vs). split; [reflexivity|]. intros k K. apply bind_dom in K.
    split; [apply in_or_app; left; now apply -> in_rev|exact (proj1 (param_inside l ND PT _ _ _ _ IN P K))].
  - exact (R_shape _ _ _ _ RR).
  - exact (R_top _ _ _ _ RR).
  - intros f' k v E T X. inversion E; subst f'. exfalso. unfold local in X. cbn [enter_call Spec_Run.r_loc] in X. assert (K : In k ks) by (apply (bind_dom ks vs); congruence).
    apply (proj2 (param_inside l ND PT _ _ _ _ IN P K)). exact (top_hoisted l PT _ _ T).
  - intros k v ST [D|(D & _)]; [|discriminate D]. apply (R_const _ _ _ _ RR k v ST). now left.
  - intros k K V O NH. assert (KK : In k ks).
    { apply in_app_iff in K as [K|[->|K]]; [now apply in_rev|exfalso; exact (var_fun _ _ V IF)|exfalso; apply NH; exact (top_hoisted l PT _ _ (E0 k K V))]. }
    destruct (BD ks vs k LEN KK) as (v & BV). destruct (FV k v BV) as (cl & A & B & C & D). exists cl. cbn [enter_function Spec_CRun.c_frames Spec_CRun.in_frames]. rewrite A. split; [reflexivity|]. split; [exact B|].
    split; [intro X; congruence|]. intros w E. cbn [mine] in E. unfold local in E. cbn [enter_call Spec_Run.r_loc] in E. congruence.
  - intros x E. cbn [enter_function Spec_CRun.c_frames Spec_CRun.in_frames] in E. assert (I : In x (map fst fr)).
    { destruct (in_frame H fr x) as [cl|] eqn:F; [|now elim E]. destruct (in_dec (list_eq_dec N.eq_dec) x (map fst fr)) as [I|NI]; [exact I|]. apply in_frame_names in NI. congruence. }
    rewrite FN in I. apply in_map_iff in I as (k & NK & K). exists k. split; [apply in_or_app; left; now apply -> in_rev|]. split; [exact (proj1 (Forall_forall _ _) VK k K)|].
    destruct (param_inside l ND PT _ _ _ _ IN P K). auto.
  - exact (R_funs _ _ _ _ RR).
Qed.

(** The functions that may be called from here. *)
Definition below (cx : option nat) (g : nat) : Prop := match cx with None => True | Some f => g < f end.

Lemma leave_call_R : forall cx e s c f s2 c2 e2 ks vs fr, R cx e s c -> scope cx e -> R (Some f) e2 s2 c2 ->
  kept (fun g => g <= f) (enter_call H s ks vs) s2 (enter_function H c fr) c2 ->
  (forall g, cx = Some g -> f < g \/ f = g /\ forall j, top_of (Some g) j -> initial j true) ->
  R cx e (leave_call H s s2) (leave_function H c c2) /\ kept (below cx) s (leave_call H s s2) c (leave_function H c c2).
Proof.
  intros cx e s c f s2 c2 e2 ks vs fr R1 S1 R2 KP CL.
  assert (KP' : kept (below cx) s (leave_call H s s2) c (leave_function H c c2)).
  { destruct KP as [K1 K2 K3]. constructor; [exact K1|exact K2|]. intro x. destruct (K3 x) as [E|[X|(g & j & E & T & F & L)]]; [now left|right; now left|].
    right; right. exists g, j. repeat (split; [assumption|]). destruct cx as [g0|]; [|exact I]. cbn [below]. destruct (CL g0 eq_refl) as [Q|(-> & Q)]; [lia|].
    assert (g <> g0); [|lia]. intros ->. pose proof (initial_one _ _ _ _ (Q j T) F) as Z. discriminate Z. }
  split; [|exact KP']. destruct KP' as [K1 K2 K3]. cbn [leave_call leave_function Spec_Run.r_glob Spec_CRun.c_glob] in *.
  constructor; cbn [leave_call leave_function Spec_Run.r_glob Spec_Run.r_loc Spec_CRun.c_glob Spec_CRun.c_frames Spec_Run.r_funs].
  - exact (R_frames _ _ _ _ R1).
  - exact (R_out _ _ _ _ R2).
  - destruct cx as [g0|].
    + destruct (R_dom _ _ _ _ R1) as (DL & DG). split; [exact DL|]. intros k K. apply DG. rewrite <- K2. exact K.
    + destruct (R_dom _ _ _ _ R1) as (EL & DG). split; [exact EL|]. intros k K. apply DG. rewrite <- K2. exact K.
  - exact (R_shape _ _ _ _ R2).
  - exact (R_top _ _ _ _ R2).
  - intros g k v -> T E. destruct (R_ftop _ _ _ _ R1 g k v eq_refl T E) as (cl & A & B). exists cl. split; [|exact B]. cbn [leave_function Spec_CRun.c_glob].
    destruct (K3 (name_of k)) as [X|[(j & NJ & (_ & SJ) & _)|(g' & j & NJ & TJ & _ & L)]]; [exact (eq_trans X A)| |].
    + exfalso. assert (TJ : top_of None j). { apply in_flat_map in SJ as (m & M1 & M2). apply tops_in in M2 as (y & M2). exists m, y. auto. }
      assert (j = k) by (apply hoisted_name; [exact (top_hoisted l PT _ _ TJ)|exact (top_hoisted l PT _ _ T)|exact NJ]). subst j. exact (own_apart l ND _ _ (top_own l _ _ TJ) (top_own l _ _ T)).
    + exfalso. assert (j = k) by (apply hoisted_name; [exact (top_hoisted l PT _ _ TJ)|exact (top_hoisted l PT _ _ T)|exact NJ]). subst j.
      pose proof (own_one l ND _ _ _ (top_own l _ _ TJ) (top_own l _ _ T)). cbn [below] in L. lia.
  - intros k v ST [D|(-> & T & NI)]; [exact (R_const _ _ _ _ R2 k v ST (or_introl D))|].
    destruct (R_const _ _ _ _ R1 k v ST (or_intror (conj eq_refl (conj T NI)))) as (cl & A & B). exists cl. split; [|exact B]. cbn [leave_function Spec_CRun.c_glob].
    destruct (K3 (name_of k)) as [X|[(j & NJ & (_ & SJ) & D)|(g' & j & NJ & TJ & _ & L)]]; [exact (eq_trans X A)| |].
    + exfalso. assert (TJ : top_of None j). { apply in_flat_map in SJ as (m & M1 & M2). apply tops_in in M2 as (y & M2). exists m, y. auto. }
      assert (j = k) by (apply hoisted_name; [exact (top_hoisted l PT _ _ TJ)|exact (top_hoisted l PT _ _ T)|exact NJ]). subst j. apply NI. exact (proj1 (proj2 (R_dom _ _ _ _ R1) k D)).
    + exfalso. assert (j = k) by (apply hoisted_name; [exact (top_hoisted l PT _ _ TJ)|exact (top_hoisted l PT _ _ T)|exact NJ]). subst j. exact (own_apart l ND _ _ (top_own l _ _ T) (top_own l _ _ TJ)).
  - intros k K V O NH. destruct (R_loc _ _ _ _ R1 k K V O NH) as (cl & A & B & C & D). exists cl. split; [exact A|]. split; [exact B|]. split; [exact C|]. intros v E. apply D.
    destruct cx as [g0|]; cbn [mine] in *; [exact E|]. cbn [leave_call Spec_Run.r_glob] in E. rewrite <- E. symmetry. apply K1. intros (_ & SJ). apply NH.
    apply in_flat_map in SJ as (m & M1 & M2). apply tops_in in M2 as (y & M2). apply (top_hoisted l PT None). exists m, y. auto.
  - exact (R_names _ _ _ _ R1).
  - exact (R_funs _ _ _ _ R1).
Qed.

Lemma set_out_R : forall cx e s c o, R cx e s c -> R cx e (set_out H s o) (mkcstate H (c_glob c) (c_frames c) o).
Proof. intros cx e s c o RR. constructor; try apply RR. reflexivity. Qed.

Lemma declare_R : forall e s c n k ks, R None e s c -> In n l -> tn_pay n = XProto k ks -> is_external ys k = false -> isfun k ->
  R None (k :: e) (declare H s k ks (tn_child n)) c.
Proof.
  intros e s c n k ks RR IN P NX IF. constructor; try apply RR.
  - destruct (R_dom _ _ _ _ RR) as (EL & DG). split; [exact EL|]. intros j J. destruct (DG j J). split; [now right|assumption].
  - intros j v ST [D|(D1 & D2 & D3)]; apply (R_const _ _ _ _ RR j v ST); [now left|right]. split; [exact D1|]. split; [exact D2|]. intro X. apply D3. now right.
  - intros j [<-|J] V O NH; [exfalso; exact (var_fun _ _ V IF)|]. exact (R_loc _ _ _ _ RR j J V O NH).
  - intros x E. destruct (R_names _ _ _ _ RR x E) as (j & J & X). exists j. split; [now right|exact X].
  - intros j ps body E. cbn [declare Spec_Run.r_funs lookup] in E. destruct (Nat.eqb_spec k j) as [->|NE]; [|exact (R_funs _ _ _ _ RR j ps body E)].
    inversion E; subst. exists n. auto.
Qed.
Lemma external_R : forall e s c k, R None e s c -> isfun k -> R None (k :: e) s c.
Proof.
  intros e s c k RR IF. constructor; try apply RR.
  - destruct (R_dom _ _ _ _ RR) as (EL & DG). split; [exact EL|]. intros j J. destruct (DG j J). split; [now right|assumption].
  - intros j v ST [D|(D1 & D2 & D3)]; apply (R_const _ _ _ _ RR j v ST); [now left|right]. split; [exact D1|]. split; [exact D2|]. intro X. apply D3. now right.
  - intros j [<-|J] V O NH; [exfalso; exact (var_fun _ _ V IF)|]. exact (R_loc _ _ _ _ RR j J V O NH).
  - intros x E. destruct (R_names _ _ _ _ RR x E) as (j & J & X). exists j. split; [now right|exact X].
Qed.
End States.
