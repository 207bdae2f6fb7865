(** Expressions in C: constants, operators and helpers. *)
From Coq Require Import List Arith NArith ZArith Bool Lia Ascii String.
From Verif Require Import Base Model_Token Model_Literal Model_Parse Model_Sem Spec_Sem Spec_Sem2 Model_CGen Spec_C Spec_CGen Spec_CProg Spec_CBack Spec_Run Model_Helpers Proof_Helpers
  Spec_LLVM Spec_CRun Spec_CBehave Proof_CGen2 Proof_LLVM Proof_LLVM3 Proof_CRun.
Import ListNotations.
Open Scope list_scope.
Open Scope Z_scope.

(** * Constants *)

Lemma c_constant_fits : forall c n ty, c_constant c = Some (n, ty) -> Spec_C.fits ty n = true.
Proof.
  intros c n ty H. unfold c_constant in H. destruct (split_suffix c) as [c' lg].
  assert (X : forall l m, first_type l m = Some (n, ty) -> Spec_C.fits ty n = true).
  { intros l m E. unfold first_type in E. destruct (List.find (fun t => Spec_C.fits t m) l) as [q|] eqn:F; [|discriminate E].
    inversion E; subst. apply find_some in F. tauto. }
  destruct c' as [|d r]; [discriminate H|].
  destruct (N.eq_dec d 48) as [->|ND].
  - destruct r as [|d2 r]; [match type of H with (match ?o with _ => _ end) = _ => destruct o as [m|]; [exact (X _ _ H)|discriminate H] end|]. destruct (N.eq_dec d2 120) as [->|ND2].
    + destruct r as [|d3 r]; match type of H with (match ?o with _ => _ end) = _ => destruct o as [m|]; [exact (X _ _ H)|discriminate H] end.
    + assert (H' : match c_digits 8 0 (d2 :: r) with
      | Some n => first_type (if lg then [CLong; CULong] else [CInt; CUInt; CLong; CULong]) n | None => None end = Some (n, ty)).
      { rewrite <- H. clear - ND2. destruct d2 as [|p]; [reflexivity|].
        do 7 (destruct p as [p|p|]; try reflexivity). exfalso. apply ND2. reflexivity. }
      match type of H' with (match ?o with _ => _ end) = _ => destruct o as [m|]; [exact (X _ _ H')|discriminate H'] end.
  - assert (H' : match c_digits 10 0 (d :: r) with
      | Some n => first_type (if lg then [CLong] else [CInt; CLong]) n | None => None end = Some (n, ty)).
    { rewrite <- H. clear - ND. destruct d as [|p]; [reflexivity|].
      do 6 (destruct p as [p|p|]; try reflexivity). exfalso. apply ND. reflexivity. }
    match type of H' with (match ?o with _ => _ end) = _ => destruct o as [m|]; [exact (X _ _ H')|discriminate H'] end.
Qed.

Lemma digits_stop : forall base t c r acc, c_digit c = None -> c_digits base acc (t ++ c :: r) = None.
Proof.
  intros base t c r. induction t as [|d t IH]; intros acc E; cbn [app c_digits].
  - now rewrite E.
  - destruct (c_digit d); [|reflexivity]. destruct (_ <? _)%N; [now apply IH|reflexivity].
Qed.
Lemma finite_hex_none : forall t, finite_hex t -> c_constant t = None.
Proof.
  intros t (h & f & s & d & E & _ & _ & ND & FD & _). unfold c_constant.
  assert (SP : split_suffix t = (t, false)).
  { unfold split_suffix. destruct (exists_last ND) as (d' & z & ->). subst t.
    replace (rev (u "0x" ++ h :: f ++ chr "p" :: s :: d' ++ [z])) with (z :: rev (u "0x" ++ h :: f ++ chr "p" :: s :: d')).
    - rewrite forallb_app in FD. apply andb_true_iff in FD as (_ & FD). cbn [forallb] in FD. rewrite andb_true_r in FD.
      destruct (z =? chr "L")%N eqn:EZ; [|reflexivity]. apply N.eqb_eq in EZ. subst z. discriminate FD.
    - replace (u "0x" ++ h :: f ++ chr "p" :: s :: d' ++ [z]) with ((u "0x" ++ h :: f ++ chr "p" :: s :: d') ++ [z]) by (rewrite <- app_assoc; cbn [app]; rewrite <- app_assoc; reflexivity).
      now rewrite rev_unit. }
  rewrite SP, E. cbn [u app]. change (u "0x") with [48; 120]%N. cbn [app].
  change (h :: f ++ chr "p" :: s :: d) with ((h :: f) ++ chr "p" :: s :: d). now rewrite digits_stop.
Qed.

Lemma binop_eq_dec : forall a b : binop, {a = b} + {a <> b}.
Proof. decide equality. Qed.

Section Steps.
Variable H : host.
Variable env : cctx.
Variable M : machine H.
Variable hs : list helper.
Variable ds : list cdef.
Hypothesis NA : numbers_agree H env M.
Local Notation same := (Spec_CGen.same).
Local Notation val := (sv (h_float H)).
Local Notation cval := (cval H).
Local Notation ys := (ce_syms env).
Local Notation eval := (eval H ys (c_exact1 H) (c_exact2 H)).
Local Notation typed := (typed ys).
Local Notation rep := (rep H).
Local Notation ceval := (ceval H M hs ds).

Lemma const_step : forall t v ty ce, same env (XConst t v ty) ce -> of_type H (literal_of H v) ty = true ->
  calling ce = false /\ reading ce = [] /\ constant ce = true /\ forall c, exists w, ceval c ce w c /\ rep (XConst t v ty) (literal_of H v) w.
Proof.
  intros t v ty ce S0 T. inversion S0; subst; cbn [calling reading constant literal_of]; repeat (split; [reflexivity|]); intro c0;
    try match goal with K : c_constant _ = Some _ |- _ => rename K into KC end; try match goal with K : _ = CInt \/ _ |- _ => rename K into KT end;
    try match goal with K : finite_hex _ |- _ => rename K into KF end.
  - assert (NV : number_value H M c = Some (VI H ty0 z)) by (unfold number_value; rewrite KC; now rewrite Z2N.id).
    exists (VI H ty0 z). split; [now apply cv_num|]. cbn [rep]. exists ty0. split; [reflexivity|]. apply c_constant_fits in KC.
    destruct KT as [-> | ->]; [right|now left]. split; [reflexivity|]. cbn [wide]. rewrite negb_false_iff. apply in32_iff. cbn [Spec_C.fits] in KC. apply N.ltb_lt in KC. lia.
  - assert (NV : number_value H M c = Some (VI H ty0 (- z))) by (unfold number_value; rewrite KC; now rewrite Z2N.id by lia).
    exists (VI H ty0 z). apply c_constant_fits in KC. split.
    + apply cv_un with (v := VI H ty0 (- z)); [now apply cv_num|]. cbn [c_unary_value]. rewrite Z.opp_involutive. unfold result.
      destruct KT as [-> | ->]; cbn [is_signed Spec_C.fits] in *; apply N.ltb_lt in KC.
      * rewrite within_int by (apply in32_iff; lia). reflexivity.
      * rewrite within_long by (apply in64_iff; lia). reflexivity.
    + cbn [rep]. exists ty0. split; [reflexivity|]. destruct KT as [-> | ->]; [right|now left]. split; [reflexivity|]. cbn [wide]. rewrite negb_false_iff. apply in32_iff.
      cbn [Spec_C.fits] in KC. apply N.ltb_lt in KC. lia.
  - exists (VI H ty0 (if b then 1 else 0)). split; [apply cv_num; unfold number_value; rewrite KC; now destruct b|]. cbn [rep]. eauto.
  - exists (VI H ty0 (Z.of_N r)). split; [apply cv_num; unfold number_value; now rewrite KC|]. cbn [rep]. eauto.
  - exists (VD H (h_lit H f)). split; [|reflexivity]. apply cv_num. unfold number_value. replace (c_constant (u "0.0")) with (@None (N * ctype)) by reflexivity.
    now rewrite (na_zero _ _ _ NA f).
  - exists (VD H (h_lit H f)). split; [|reflexivity]. apply cv_num. unfold number_value. rewrite (finite_hex_none _ KF). now rewrite (na_plain _ _ _ NA f KF).
  - destruct (na_minus _ _ _ NA f h ltac:(assumption)) as (g & MG & NG). exists (VD H (h_lit H f)). split; [|reflexivity].
    apply cv_un with (v := VD H g); [apply cv_num; unfold number_value; now rewrite (finite_hex_none _ KF), MG|]. cbn [c_unary_value]. now rewrite NG.
  - exists (VS H s). split; [apply cv_str|reflexivity].
Qed.

Lemma un_step : forall o x ty c ce, same env (XUn o x ty c) ce -> typed (XUn o x ty c) -> sized (XUn o x ty c) ->
  exists e, same env x e /\ calling ce = calling e /\ reading ce = reading e /\ constant ce = constant e /\
  forall s s1 v v' c0 c1 w, eval s x v s1 -> unary H o v = Some v' -> ceval c0 e w c1 -> rep x v w -> exists w', ceval c0 ce w' c1 /\ rep (XUn o x ty c) v' w'.
Proof.
  intros o x ty c ce S0 T SZ. inversion S0; subst. match goal with K : c_unary _ _ |- _ => rename K into KU end. exists e. repeat (split; [auto|]). intros s s1 v v' c0 c1 w E U C R.
  destruct (unary_sim H ys o op x ty c s s1 v v' w KU E T SZ U R) as (w' & CU & R'). exists w'. split; [|exact R']. now apply cv_un with (v := w).
Qed.

Lemma truth_rep : forall x b w, rep x (SvBool b) w -> truth H w = Some b.
Proof. intros x b w (t & ->). now destruct b. Qed.

Lemma bin_step : forall o x y ty c ce, same env (XBin o x y ty c) ce -> typed (XBin o x y ty c) -> sized (XBin o x y ty c) ->
  (forall h, helper_for o (x_ty x) ty = Some h -> In h hs) ->
  exists a b, same env x a /\ same env y b /\ calling ce = calling a || calling b /\ (forall z, In z (reading ce) <-> In z (reading a ++ reading b)) /\
  (constant_part (XBin o x y ty c) -> constant ce = constant a && constant b) /\
  forall s s1 s2 va vb v c0 c1 c2 wa wb, eval s x va s1 -> eval s1 y vb s2 -> c_exact2 H o va vb -> binary H o va vb = Some v ->
    ceval c0 a wa c1 -> ceval c1 b wb c2 -> rep x va wa -> rep y vb wb ->
    (o = BAnd \/ o = BOr -> c2 = c1) -> (o <> BAnd -> o <> BOr -> any_order H c0 c2 [a; b]) ->
    (forall h, in_frames H (c_frames H c0) (helper_name h) = None) -> exists w, ceval c0 ce w c2 /\ rep (XBin o x y ty c) v w.
Proof.
  intros o x y ty c ce S0 T SZ HH.
  assert (CL : forall f a b, is_helper (u f) = true -> calling (call2 f a b) = calling a || calling b).
  { intros f a b E. unfold call2. cbn [calling existsb]. rewrite E. cbn [negb orb]. now rewrite orb_false_r. }
  assert (RL : forall f a b z, In z (reading (call2 f a b)) <-> In z (reading a ++ reading b)).
  { intros f a b z. unfold call2. cbn [reading flat_map]. now rewrite app_nil_r. }
  pose proof T as (TX & TY & EQ & OT).
  inversion S0; subst; try match goal with K : c_binary _ _ |- _ => rename K into KB end; try match goal with K : x_ty x = TStr -> _ |- _ => rename K into KN end;
    try match goal with K : x_ty x = TStr |- _ => rename K into KS end; exists a, b; (split; [assumption|]); (split; [assumption|]).
  - split; [reflexivity|]. split; [reflexivity|]. split; [reflexivity|].
    intros s s1 s2 va vb v c0 c1 c2 wa wb EX EY OK B CA CB RA RB SC AO NH.
    destruct (binop_eq_dec o BAnd) as [->|N1]; [|destruct (binop_eq_dec o BOr) as [->|N2]].
    + specialize (SC (or_introl eq_refl)). subst c2. destruct va as [| |b1| | |]; try discriminate B. destruct vb as [| |b2| | |]; try discriminate B. cbn [binary] in B. inversion B; subst v.
      inversion KB; subst op. pose proof (truth_rep _ _ _ RA) as TA. pose proof (truth_rep _ _ _ RB) as TB. exists (truth_value H (b1 && b2)). split; [|exists CInt; reflexivity].
      destruct b1; [now apply cv_and_true with c1 wa wb|]. cbn [andb]. now apply cv_and_false with wa.
    + specialize (SC (or_intror eq_refl)). subst c2. destruct va as [| |b1| | |]; try discriminate B. destruct vb as [| |b2| | |]; try discriminate B. cbn [binary] in B. inversion B; subst v.
      inversion KB; subst op. pose proof (truth_rep _ _ _ RA) as TA. pose proof (truth_rep _ _ _ RB) as TB. exists (truth_value H (b1 || b2)). split; [|exists CInt; reflexivity].
      destruct b1; [cbn [orb]; now apply cv_or_true with wa|]. now apply cv_or_false with c1 wa wb.
    + destruct (binary_sim H ys o op x y ty c s s1 s2 va vb v wa wb KB N1 N2 KN EX EY T SZ OK B RA RB) as (w & BV & R). exists w. split; [|exact R].
      now apply cv_bin with c1 wa wb; [| |apply AO|].
  - split; [now apply CL|]. split; [apply RL|]. split; [intros (_ & NC); destruct (NC KS) as (NC' & _); now elim NC'|].
    intros s s1 s2 va vb v c0 c1 c2 wa wb EX EY OK B CA CB RA RB SC AO NH.
    pose proof (eval_types _ _ _ _ _ _ EX TX) as VX. pose proof (eval_types _ _ _ _ _ _ EY TY) as VY. rewrite <- EQ in VY. rewrite KS in VX, VY.
    destruct va as [| | | |t1|]; try discriminate VX. destruct vb as [| | | |t2|]; try discriminate VY. cbn [rep] in RA, RB. subst wa wb.
    cbn [binary equal option_map] in B. inversion B; subst v. exists (truth_value H (strcmp t1 t2)). split.
    + apply (cv_helper H M hs ds c0 c2 HStrcmp [a; b] [VS H t1; VS H t2]); [|apply AO; discriminate|apply HH; cbn; now rewrite KS|apply NH|reflexivity].
      apply cvs_cons with c1; [exact CA|]. apply cvs_cons with c2; [exact CB|apply cvs_nil].
    + cbn [of_type] in VX, VY. rewrite strcmp_equal by (now apply no_nul_forallb). exists CInt. reflexivity.
  - split; [unfold call2; cbn [calling]; now apply (CL "_strcmp"%string)|]. split; [exact (RL "_strcmp"%string a b)|]. split; [intros (_ & NC); destruct (NC KS) as (_ & NC'); now elim NC'|].
    intros s s1 s2 va vb v c0 c1 c2 wa wb EX EY OK B CA CB RA RB SC AO NH.
    pose proof (eval_types _ _ _ _ _ _ EX TX) as VX. pose proof (eval_types _ _ _ _ _ _ EY TY) as VY. rewrite <- EQ in VY. rewrite KS in VX, VY.
    destruct va as [| | | |t1|]; try discriminate VX. destruct vb as [| | | |t2|]; try discriminate VY. cbn [rep] in RA, RB. subst wa wb.
    cbn [binary equal option_map] in B. inversion B; subst v. exists (truth_value H (negb (strcmp t1 t2))). split.
    + apply cv_un with (v := truth_value H (strcmp t1 t2)); [|cbn; now destruct (strcmp t1 t2)].
      apply (cv_helper H M hs ds c0 c2 HStrcmp [a; b] [VS H t1; VS H t2]); [|apply AO; discriminate|apply HH; cbn; now rewrite KS|apply NH|reflexivity].
      apply cvs_cons with c1; [exact CA|]. apply cvs_cons with c2; [exact CB|apply cvs_nil].
    + cbn [of_type] in VX, VY. rewrite strcmp_equal by (now apply no_nul_forallb). exists CInt. reflexivity.
  - split; [now apply CL|]. split; [apply RL|]. split; [intros (NC & _); now elim NC|].
    intros s s1 s2 va vb v c0 c1 c2 wa wb EX EY OK B CA CB RA RB SC AO NH.
    pose proof (eval_types _ _ _ _ _ _ EX TX) as VX. pose proof (eval_types _ _ _ _ _ _ EY TY) as VY.
    assert (E2 : eval s (XBin BPow x y TInt c) v s2) by (now apply ev_bin with s1 va vb). pose proof (eval_types _ _ _ _ _ _ E2 T) as VV. cbn [x_ty] in VV.
    assert (XI : x_ty y = TInt) by (inversion OT; subst; auto; exfalso; repeat match goal with I : In _ _ |- _ => destruct I as [I|I]; [discriminate I|] end; cbn in *; tauto).
    rewrite EQ, XI in VX. rewrite XI in VY. destruct va as [z1| | | | |]; try discriminate VX. destruct vb as [z2| | | | |]; try discriminate VY. cbn [rep of_type] in *.
    destruct RA as (t1 & -> & _), RB as (t2 & -> & _). cbn [binary c_exact2] in B, OK.
    assert (V2 : v = SvInt (z1 ^ z2) /\ in64 (z1 ^ z2) = true).
    { destruct (z2 <? 0); [discriminate B|]. unfold fit in B. destruct (in64 (z1 ^ z2)) eqn:I; inversion B. auto. }
    destruct V2 as (-> & I6). exists (VI H CLong (z1 ^ z2)). split; [|exists CLong; auto].
    apply (cv_helper H M hs ds c0 c2 HIntPow [a; b] [VI H t1 z1; VI H t2 z2]); [|apply AO; discriminate|apply HH; reflexivity|apply NH|].
    + apply cvs_cons with c1; [exact CA|]. apply cvs_cons with c2; [exact CB|apply cvs_nil].
    + cbn [helper_value]. rewrite !wrap64_id by assumption. now rewrite int_pow_value.
  - split; [now apply CL|]. split; [apply RL|]. split; [intros (NC & _); now elim NC|].
    intros s s1 s2 va vb v c0 c1 c2 wa wb EX EY OK B CA CB RA RB SC AO NH.
    pose proof (eval_types _ _ _ _ _ _ EX TX) as VX. pose proof (eval_types _ _ _ _ _ _ EY TY) as VY.
    assert (XI : x_ty y = TFloat) by (inversion OT; subst; auto; exfalso; repeat match goal with I : In _ _ |- _ => destruct I as [I|I]; [discriminate I|] end; cbn in *; tauto).
    rewrite EQ, XI in VX. rewrite XI in VY. destruct va as [|f1| | | |]; try discriminate VX. destruct vb as [|f2| | | |]; try discriminate VY. cbn [rep] in *. subst wa wb.
    cbn [binary] in B. inversion B; subst v. exists (VD H (h_pow H f1 f2)). split; [|reflexivity].
    apply (cv_helper H M hs ds c0 c2 HFloatPow [a; b] [VD H f1; VD H f2]); [|apply AO; discriminate|apply HH; reflexivity|apply NH|reflexivity].
    apply cvs_cons with c1; [exact CA|]. apply cvs_cons with c2; [exact CB|apply cvs_nil].
Qed.

(** * Constant expressions *)

Lemma const_expr : forall x, (forall p, xpart p x -> constant_part p /\ sized p) -> typed x -> forall s v s1, eval s x v s1 ->
  s1 = s /\ (forall s0, eval s0 x v s0) /\ (forall s0 v' s2, eval s0 x v' s2 -> v' = v) /\
  forall ce, same env x ce -> constant ce = true /\ calling ce = false /\ forall c, c_frames H c = [] -> exists w, ceval c ce w c /\ rep x v w.
Proof.
  intro x. induction x as [t k ty c|t v0 ty|t k args ty F|o a ty c IH|o a b ty c IHa IHb] using texpr_ind'; intros P T s v s1 E.
  - destruct (P _ (xp_self _)) as ([] & _).
  - inversion E; subst. split; [reflexivity|]. split; [intro s0; now apply ev_const|]. split; [intros s0 v' s2 E'; now inversion E'|].
    intros ce S0. destruct (const_step t v0 ty ce S0 ltac:(assumption)) as (A & _ & B & C). repeat (split; [assumption|]). intros c _. apply C.
  - destruct (P _ (xp_self _)) as ([] & _).
  - apply eval_un in E as (va & E & OK & U). destruct (P _ (xp_self _)) as (_ & SZ).
    destruct (IH ltac:(intros p Q; apply P; now apply xp_un) (proj1 T) _ _ _ E) as (-> & I1 & I2 & I3).
    split; [reflexivity|]. split; [intro s0; now apply ev_un with va|]. split.
    + intros s0 v' s2 E'. apply eval_un in E' as (vb & E' & _ & U'). rewrite (I2 _ _ _ E') in U'. congruence.
    + intros ce S0. destruct (un_step _ _ _ _ _ S0 T SZ) as (e & SE & CA & _ & CO & ST). destruct (I3 e SE) as (J1 & J2 & J3). rewrite CO, CA. repeat (split; [assumption|]).
      intros c0 F0. destruct (J3 c0 F0) as (w & C & R). exact (ST _ _ _ _ _ _ _ E U C R).
  - apply eval_bin in E as (va & vb & s0 & EA & EB & OK & B). destruct (P _ (xp_self _)) as (CP & SZ).
    destruct (IHa ltac:(intros p Q; apply P; now apply xp_left) (proj1 T) _ _ _ EA) as (-> & A1 & A2 & A3).
    destruct (IHb ltac:(intros p Q; apply P; now apply xp_right) (proj1 (proj2 T)) _ _ _ EB) as (-> & B1 & B2 & B3).
    split; [reflexivity|]. split; [intro s0; now apply ev_bin with s0 va vb|]. split.
    + intros s0 v' s2 E'. apply eval_bin in E' as (va' & vb' & s3 & EA' & EB' & _ & B'). rewrite (A2 _ _ _ EA'), (B2 _ _ _ EB') in B'. congruence.
    + intros ce S0.
      assert (HH : forall h, helper_for o (x_ty a) ty = Some h -> In h hs).
      { intros h HF. exfalso. destruct CP as (NP & NS). destruct o; cbn [helper_for] in HF; try discriminate HF; try congruence; destruct (x_ty a) eqn:XA; try discriminate HF; destruct (NS eq_refl); congruence. }
      destruct (bin_step _ _ _ _ _ _ S0 T SZ HH) as (ca & cb & SA & SB & CA & RD & CO & ST).
      destruct (A3 ca SA) as (J1 & J2 & J3). destruct (B3 cb SB) as (K1 & K2 & K3). rewrite (CO CP), CA, J1, J2, K1, K2. repeat (split; [reflexivity|]).
      intros c0 F0. destruct (J3 c0 F0) as (wa & CEA & RA). destruct (K3 c0 F0) as (wb & CEB & RB).
      apply (ST _ _ _ _ _ _ _ _ _ _ _ EA EB OK B CEA CEB RA RB); auto.
      * intros _ _. split; [cbn [filter]; rewrite J2, K2; cbn; lia|]. auto.
      * intro h. now rewrite F0.
Qed.
End Steps.
