From Coq Require Import List Arith NArith Bool Lia Ascii String.
From Verif Require Import Base Model_Names Spec_Names.
Import ListNotations.
Open Scope list_scope.
Open Scope N_scope.

Lemma put_exact : forall (p q : buf) (m : list (option N)) cs,
  List.length m = List.length cs ->
  forall off, off = N.of_nat (List.length p) ->
  put (p ++ m ++ q) off cs = Ok (p ++ map Some cs ++ q).
Proof.
  intros p q m cs L off ->. unfold put.
  rewrite !app_length.
  replace (_ <=? _) with true by (symmetry; apply N.leb_le; lia).
  rewrite Nat2N.id. f_equal.
  rewrite firstn_app, firstn_all, Nat.sub_diag. cbn [firstn]. rewrite app_nil_r.
  f_equal. f_equal. rewrite app_assoc, <- L, <- app_length.
  rewrite skipn_app, skipn_all, Nat.sub_diag. reflexivity.
Qed.

Lemma strncpy_exact : forall (p q m : buf) src n,
  N.of_nat (List.length m) = n ->
  forall off, off = N.of_nat (List.length p) ->
  strncpy (p ++ m ++ q) off src n =
  Ok (p ++ map Some (firstn (N.to_nat n) (src ++ repeat 0 (N.to_nat n))) ++ q).
Proof.
  intros p q m src n L off E. unfold strncpy.
  rewrite !app_length.
  replace (_ <=? _) with true by (symmetry; apply N.leb_le; lia).
  apply put_exact; [|exact E].
  rewrite firstn_length, app_length, repeat_length. lia.
Qed.

Lemma firstn_pad : forall (s : text) n, (List.length s <= n)%nat ->
  firstn n (s ++ repeat 0 n) = s ++ repeat 0 (n - List.length s).
Proof.
  intros s n H. rewrite firstn_app, firstn_all2 by lia. f_equal.
  rewrite <- (firstn_all2 (n := n - List.length s) (repeat 0 (n - List.length s))) at 1
    by (rewrite repeat_length; lia).
  replace n with ((n - List.length s) + List.length s)%nat at 2 by lia.
  rewrite repeat_app, firstn_app, repeat_length, Nat.sub_diag. cbn [firstn].
  rewrite app_nil_r. reflexivity.
Qed.

Lemma cstr_app : forall s r, nz s -> cstr (map Some s ++ Some 0 :: r) = Ok s.
Proof.
  induction s as [|c s IH]; intros r H; [reflexivity|].
  inversion H; subst. cbn [map app cstr].
  apply N.eqb_neq in H2. rewrite H2, IH by assumption. reflexivity.
Qed.

Lemma strrchr_none : forall s c, strrchr s c = None <-> ~ In c s.
Proof.
  induction s as [|x s IH]; intro c; cbn [strrchr In]; [easy|].
  destruct (strrchr s c) eqn:E.
  - split; [discriminate|]. intro H. exfalso. apply H. right.
    destruct (in_dec N.eq_dec c s) as [|n0]; [assumption|]. apply IH in n0. congruence.
  - apply IH in E. destruct (N.eqb_spec x c); split; intro H; try easy.
    + exfalso. apply H. now left.
    + intros [->|]; easy.
Qed.

Lemma strrchr_app : forall p q c, ~ In c q -> strrchr (p ++ c :: q) c = Some (List.length p).
Proof.
  induction p as [|x p IH]; intros q c H; cbn [app strrchr].
  - apply strrchr_none in H. rewrite H, N.eqb_refl. reflexivity.
  - now rewrite IH.
Qed.

Lemma strrchr_split : forall s c i, strrchr s c = Some i ->
  exists p q, s = p ++ c :: q /\ ~ In c q /\ List.length p = i.
Proof.
  induction s as [|x s IH]; intros c i H; cbn in H; [easy|].
  destruct (strrchr s c) as [j|] eqn:E.
  - inversion H; subst. destruct (IH _ _ E) as (p & q & -> & N & L).
    exists (x :: p), q. repeat split; [assumption|cbn; lia].
  - destruct (N.eqb_spec x c); inversion H; subst.
    exists [], s. repeat split. now apply strrchr_none.
Qed.

Lemma basename_dir : forall dir base, ~ In slash base -> basename (dir ++ slash :: base) = base.
Proof.
  intros. unfold basename. rewrite strrchr_app by assumption.
  rewrite Nat.add_1_r. change (slash :: base) with ([slash] ++ base). rewrite app_assoc.
  rewrite <- (Nat.add_1_r (List.length dir)).
  replace (List.length dir + 1)%nat with (List.length (dir ++ [slash])) by (rewrite app_length; reflexivity).
  rewrite skipn_app, skipn_all, Nat.sub_diag. reflexivity.
Qed.

Lemma basename_plain : forall base, ~ In slash base -> basename base = base.
Proof.
  intros. unfold basename. apply strrchr_none in H. now rewrite H.
Qed.

Lemma repeat_plus : forall (n m : nat), repeat (@None N) (n + m) = repeat None n ++ repeat None m.
Proof. intros. apply repeat_app. Qed.

Lemma buf_split : forall (b : buf) (n : nat), (n <= List.length b)%nat ->
  exists p q, b = p ++ q /\ List.length p = n.
Proof.
  intros b n H. exists (firstn n b), (skipn n b). split; [now rewrite firstn_skipn|].
  rewrite firstn_length. lia.
Qed.

Lemma nz_app : forall a b, nz (a ++ b) <-> nz a /\ nz b.
Proof. intros. apply Forall_app. Qed.

Lemma dot_nz : dot <> 0. Proof. discriminate. Qed.
Lemma slash_nz : slash <> 0. Proof. discriminate. Qed.

Lemma nz_cons : forall c a, c <> 0 -> nz a -> nz (c :: a).
Proof. intros. now constructor. Qed.

Lemma gen_plain : forall base ext, nz base -> nz ext -> ~ In slash base ->
  gen_filename base ext = Ok (dot :: base ++ dot :: ext).
Proof.
  intros base ext Hb He Hs. unfold gen_filename. pose proof Hs as Hs'. apply strrchr_none in Hs'. rewrite Hs'.
  unfold strlen, malloc.
  replace (N.to_nat _) with (1 + (List.length base + (1 + (List.length ext + 1))))%nat by lia.
  rewrite !repeat_plus. cbn [repeat].
  change (put1 ([None] ++ ?x) 0 dot) with (put ([] ++ [None] ++ x) 0 [dot]).
  rewrite put_exact by reflexivity. cbn [bind app map].
  set (tl := repeat None (List.length ext) ++ [None]).
  change (Some dot :: repeat None (List.length base) ++ None :: tl)
    with ([Some dot] ++ repeat None (List.length base) ++ [None] ++ tl).
  rewrite (app_assoc (repeat None (List.length base)) [None]).
  rewrite strncpy_exact by (first [rewrite app_length, repeat_length; cbn; lia | reflexivity]).
  cbn [bind].
  replace (N.to_nat (N.of_nat (List.length base) + 1)) with (List.length base + 1)%nat by lia.
  rewrite firstn_pad by lia.
  replace (_ + 1 - _)%nat with 1%nat by lia. cbn [repeat]. rewrite map_app. cbn [map].
  rewrite <- (app_assoc (map Some base)). rewrite (app_assoc [Some dot]).
  unfold put1. rewrite put_exact with (m := [Some 0]) (cs := [dot]) by
    (first [reflexivity | rewrite app_length, map_length; cbn [List.length]; lia]).
  cbn [bind map]. subst tl.
  rewrite (app_assoc ([Some dot] ++ map Some base)).
  rewrite <- (app_nil_r (repeat None (List.length ext) ++ [None])).
  rewrite strncpy_exact by (rewrite ?app_length, ?map_length, ?repeat_length; cbn [List.length]; lia).
  cbn [bind]. rewrite app_nil_r.
  replace (N.to_nat (N.of_nat (List.length ext) + 1)) with (List.length ext + 1)%nat by lia.
  rewrite firstn_pad by lia. replace (_ + 1 - _)%nat with 1%nat by lia. cbn [repeat].
  rewrite map_app. cbn [map].
  transitivity (cstr (map Some (dot :: base ++ dot :: ext) ++ [Some 0])).
  - f_equal. cbn [map]. rewrite map_app. cbn [map app]. rewrite <- !app_assoc. reflexivity.
  - apply cstr_app. apply nz_cons; [apply dot_nz|]. apply nz_app. split; [assumption|].
    apply nz_cons; [apply dot_nz|assumption].
Qed.

Lemma gen_dir : forall dir base ext, nz dir -> nz base -> nz ext -> ~ In slash base ->
  gen_filename (dir ++ slash :: base) ext = Ok (dir ++ slash :: dot :: base ++ dot :: ext).
Proof.
  intros dir base ext Hd Hb He Hs. unfold gen_filename. rewrite strrchr_app by assumption.
  set (filename := dir ++ slash :: base).
  assert (Lf : List.length filename = (List.length dir + 1 + List.length base)%nat).
  { unfold filename. rewrite app_length. cbn [List.length]. lia. }
  unfold strlen. rewrite Lf. unfold malloc.
  replace (N.to_nat _) with
    ((List.length dir + 1 + List.length base + 1) + (1 + List.length ext + 1))%nat by lia.
  rewrite repeat_plus.
  rewrite <- (app_nil_l (repeat None _ ++ repeat None _)).
  rewrite strncpy_exact by (first [rewrite repeat_length; lia | reflexivity]).
  cbn [bind app].
  replace (N.to_nat (N.of_nat (List.length dir + 1 + List.length base) + 1))
    with (List.length dir + 1 + List.length base + 1)%nat by lia.
  rewrite firstn_pad by lia. rewrite Lf.
  replace (_ + 1 - _)%nat with 1%nat by lia. cbn [repeat].
  set (tail := repeat None (1 + List.length ext + 1)).
  (* the byte after the slash: split off the first of base ++ [0] *)
  assert (Sp : exists c r, base ++ [0] = c :: r /\ List.length r = List.length base).
  { destruct base as [|c b]; [exists 0, []; auto|]. exists c, (b ++ [0]). split; [reflexivity|].
    rewrite app_length. cbn. lia. }
  destruct Sp as (c & r & Ec & Lr).
  assert (E1 : map Some (filename ++ [0]) ++ tail
             = map Some (dir ++ [slash]) ++ [Some c] ++ (map Some r ++ tail)).
  { unfold filename. rewrite <- (app_assoc dir). cbn [app]. rewrite Ec.
    rewrite !map_app. cbn [map]. rewrite <- !app_assoc. reflexivity. }
  rewrite E1. unfold put1 at 1.
  rewrite put_exact with (cs := [dot]) by
    (first [reflexivity | rewrite map_length, app_length; cbn [List.length]; lia]).
  cbn [bind map].
  (* copy base after the dot *)
  replace (skipn (List.length dir + 1) filename) with base.
  2:{ unfold filename. change (slash :: base) with ([slash] ++ base). rewrite app_assoc.
      replace (List.length dir + 1)%nat with (List.length (dir ++ [slash])) by (rewrite app_length; reflexivity).
      rewrite skipn_app, skipn_all, Nat.sub_diag. reflexivity. }
  rewrite (app_assoc _ [Some dot]).
  assert (Et : tail = None :: repeat None (List.length ext + 1)).
  { unfold tail. rewrite <- Nat.add_assoc. reflexivity. }
  rewrite Et. change (None :: ?x) with ([None] ++ x). rewrite (app_assoc (map Some r) [None]).
  rewrite strncpy_exact; cycle 1.
  { rewrite app_length, map_length. cbn [List.length]. lia. }
  { rewrite !app_length, map_length, app_length. cbn [List.length]. lia. }
  cbn [bind].
  replace (N.to_nat (N.of_nat (List.length dir + 1 + List.length base) - N.of_nat (List.length dir)))
    with (List.length base + 1)%nat by lia.
  rewrite firstn_pad by lia. replace (_ + 1 - _)%nat with 1%nat by lia. cbn [repeat].
  rewrite (map_app Some base [0]). cbn [map].
  rewrite <- (app_assoc (map Some base)). rewrite (app_assoc _ (map Some base)).
  unfold put1. rewrite put_exact with (m := [Some 0]) (cs := [dot]); [|reflexivity|].
  2:{ rewrite !app_length, !map_length, app_length. cbn [List.length]. lia. }
  cbn [bind map].
  rewrite (app_assoc _ [Some dot] (repeat _ _)).
  rewrite <- (app_nil_r (repeat None (List.length ext + 1))).
  rewrite strncpy_exact; cycle 1.
  { rewrite repeat_length. lia. }
  { rewrite !app_length, !map_length, app_length. cbn [List.length]. lia. }
  cbn [bind]. rewrite app_nil_r.
  replace (N.to_nat (N.of_nat (List.length ext) + 1)) with (List.length ext + 1)%nat by lia.
  rewrite firstn_pad by lia. replace (_ + 1 - _)%nat with 1%nat by lia. cbn [repeat].
  transitivity (cstr (map Some (dir ++ slash :: dot :: base ++ dot :: ext) ++ [Some 0])).
  - f_equal. rewrite !map_app. cbn [map]. rewrite !map_app. cbn [map app].
    rewrite <- !app_assoc. cbn [app]. rewrite <- !app_assoc. reflexivity.
  - apply cstr_app. apply nz_app. split; [assumption|].
    apply nz_cons; [apply slash_nz|]. apply nz_cons; [apply dot_nz|]. apply nz_app. split; [assumption|].
    apply nz_cons; [apply dot_nz|assumption].
Qed.

(** ** size_t arithmetic *)
Lemma size_sub_ok : forall a b, b <= a -> a < 2 ^ 64 -> size_sub a b = a - b.
Proof.
  intros a b H1 H2. unfold size_sub.
  replace (a + 2 ^ 64 - b) with ((a - b) + 1 * 2 ^ 64) by lia.
  rewrite N.mod_add by discriminate. apply N.mod_small. lia.
Qed.

Lemma has_base_basename : forall path base, has_base path base -> basename path = base.
Proof.
  intros path base (N & [->|(dir & ->)]); [apply basename_plain|apply basename_dir]; assumption.
Qed.

Lemma has_base_exists : forall path, exists base, has_base path base.
Proof.
  intro path. destruct (strrchr path slash) as [i|] eqn:E.
  - apply strrchr_split in E as (p & q & -> & N & _). exists q. split; [assumption|]. right. now exists p.
  - apply strrchr_none in E. exists path. split; [assumption|]. now left.
Qed.

Lemma mangle_ok : forall path m name, has_base path (m ++ u ".sk") ->
  nz m -> nz name -> fits m -> fits name ->
  mangle_name path name = Ok (m ++ dot :: name).
Proof.
  intros path m name Hb Hm Hn Fm Fn. unfold mangle_name. rewrite (has_base_basename _ _ Hb).
  unfold fits, strlen in *. rewrite app_length. change (List.length (u ".sk")) with 3%nat.
  rewrite size_sub_ok by lia.
  replace (N.of_nat (List.length m + 3) - 2) with (N.of_nat (List.length m + 1)) by lia.
  rewrite N.mod_small by lia. unfold malloc.
  replace (N.to_nat _) with ((List.length m + 1) + (List.length name + 2))%nat by lia.
  rewrite repeat_plus. rewrite <- (app_nil_l (repeat None _ ++ repeat None _)).
  rewrite strncpy_exact by (first [rewrite repeat_length; lia | reflexivity]).
  cbn [bind app]. rewrite Nat2N.id.
  assert (E : firstn (List.length m + 1) ((m ++ u ".sk") ++ repeat 0 (List.length m + 1)) = m ++ [dot]).
  { rewrite <- app_assoc, firstn_app, firstn_all2 by lia. f_equal.
    replace (List.length m + 1 - List.length m)%nat with 1%nat by lia. reflexivity. }
  rewrite E.
  replace (List.length name + 2)%nat with (1 + (List.length name + 1))%nat by lia.
  rewrite repeat_plus. cbn [repeat]. unfold put1.
  rewrite put_exact with (cs := [dot]); [|reflexivity|rewrite map_length, app_length; cbn; lia].
  cbn [bind map].
  (* strncpy over the dot just written *)
  destruct name as [|c name].
  - cbn [List.length]. 
    rewrite <- (app_nil_l ([Some dot] ++ _)).
    rewrite strncpy_exact; [|reflexivity|rewrite map_length, app_length; cbn; lia].
    cbn [bind]. change (map Some (firstn (N.to_nat (N.of_nat 0)) ?x)) with (@nil (option N)).
    rewrite app_nil_l.
    rewrite put_exact with (cs := [0]); [|reflexivity|rewrite map_length, app_length; cbn; lia].
    cbn [bind map app]. rewrite cstr_app; [reflexivity|].
    apply nz_app. split; [assumption|]. apply nz_cons; [apply dot_nz|constructor].
  - cbn [List.length].
    replace (S (List.length name) + 1)%nat with (List.length name + (1 + 1))%nat by lia.
    rewrite repeat_plus. rewrite (app_assoc [Some dot]).
    rewrite strncpy_exact; [|rewrite app_length, repeat_length; cbn; lia|rewrite map_length, app_length; cbn; lia].
    cbn [bind]. rewrite Nat2N.id.
    change (S (List.length name)) with (List.length (c :: name)).
    rewrite firstn_pad by lia. rewrite Nat.sub_diag. cbn [repeat]. rewrite app_nil_r.
    rewrite (app_assoc (map Some (m ++ [dot]))). rewrite <- map_app.
    change (repeat None (1 + 1)) with ([@None N] ++ [None]).
    rewrite put_exact with (cs := [0]); [|reflexivity|rewrite map_length, !app_length; cbn; lia].
    cbn [bind map app]. rewrite cstr_app.
    + rewrite <- app_assoc. reflexivity.
    + rewrite <- app_assoc. apply nz_app. split; [assumption|]. apply nz_cons; [apply dot_nz|assumption].
Qed.

Lemma main_name_ok : forall path m, has_base path (m ++ u ".sk") -> nz m -> fits m ->
  create_main_func_name (Some path) = Ok (dot :: m).
Proof.
  intros path m Hb Hm Fm. unfold create_main_func_name. rewrite (has_base_basename _ _ Hb).
  unfold fits, strlen in *.
  assert (EL : (match m ++ u ".sk" with [] => 2 | _ :: _ =>
    size_sub (N.of_nat (List.length (m ++ u ".sk"))) 1 end) = N.of_nat (List.length m + 2)).
  { rewrite app_length. change (List.length (u ".sk")) with 3%nat.
    destruct m as [|c m]; cbn [app u list_ascii_of_string map]; cbn [List.length] in *;
      rewrite size_sub_ok by lia; lia. }
  rewrite EL. clear EL. rewrite size_sub_ok by lia.
  unfold malloc. rewrite Nat2N.id.
  replace (List.length m + 2)%nat with (1 + (List.length m + 1))%nat at 1 by lia.
  rewrite repeat_plus. cbn [repeat]. unfold put1.
  rewrite <- (app_nil_l ([None] ++ _)). rewrite put_exact by reflexivity. cbn [bind map].
  rewrite app_nil_l. rewrite <- (app_nil_r (repeat None _)).
  rewrite strncpy_exact; [|rewrite repeat_length; lia|reflexivity].
  cbn [bind]. replace (N.to_nat _) with (List.length m + 1)%nat by lia.
  assert (E : firstn (List.length m + 1) ((m ++ u ".sk") ++ repeat 0 (List.length m + 1)) = m ++ [dot]).
  { rewrite <- app_assoc, firstn_app, firstn_all2 by lia. f_equal.
    replace (List.length m + 1 - List.length m)%nat with 1%nat by lia. reflexivity. }
  rewrite E. rewrite app_nil_r, map_app. rewrite app_assoc. cbn [map].
  rewrite <- (app_nil_r [Some dot]) at 2.
  rewrite put_exact with (cs := [0]); [|reflexivity|rewrite app_length, map_length; cbn; lia].
  cbn [bind map]. transitivity (cstr (map Some (dot :: m) ++ [Some 0])); [reflexivity|].
  apply cstr_app. apply nz_cons; [apply dot_nz|assumption].
Qed.

Lemma module_file_ok : forall m, nz m -> filename_for_module m = Ok (m ++ u ".sk").
Proof.
  intros m Hm. unfold filename_for_module, strlen, malloc.
  replace (N.to_nat _) with (List.length m + (3 + 1))%nat by lia.
  rewrite repeat_plus. rewrite <- (app_nil_l (repeat None _ ++ repeat None _)).
  rewrite strncpy_exact; [|rewrite repeat_length; lia|reflexivity].
  cbn [bind app]. rewrite Nat2N.id, firstn_pad by lia. rewrite Nat.sub_diag. cbn [repeat]. rewrite app_nil_r.
  change (repeat None (3 + 1)) with ([@None N; None; None; None] ++ []).
  rewrite strncpy_exact; [|reflexivity|rewrite map_length; reflexivity].
  cbn [bind]. rewrite app_nil_r.
  change (map Some (firstn (N.to_nat 4) (u ".sk" ++ repeat 0 (N.to_nat 4))))
    with (map Some (u ".sk") ++ [Some 0]).
  rewrite app_assoc, <- map_app. unfold put1.
  rewrite <- (app_nil_r [Some 0]).
  rewrite put_exact with (cs := [0]); [|reflexivity|rewrite map_length, app_length; cbn; lia].
  cbn [bind map]. apply cstr_app. apply nz_app. split; [assumption|].
  repeat constructor; discriminate.
Qed.

Lemma cur_dir_ok : forall dir base, nz dir -> dir <> [] -> ~ In slash base ->
  current_file_dir (dir ++ slash :: base) = Ok dir.
Proof.
  intros dir base Hd Hne Hs. unfold current_file_dir. rewrite strrchr_app by assumption.
  destruct dir as [|c d]; [congruence|]. cbn [List.length].
  rewrite map_app. cbn [map]. rewrite <- app_assoc.
  change ((Some slash :: map Some base) ++ [Some 0]) with ([Some slash] ++ (map Some base ++ [Some 0])).
  unfold put1. rewrite put_exact with (cs := [0]); [|reflexivity|cbn [List.length]; rewrite map_length; reflexivity].
  cbn [bind]. change (Some c :: map Some d) with (map Some (c :: d)). apply cstr_app. assumption.
Qed.

Lemma put_dot : forall (x y : option N) r,
  (do d <- put1 (x :: y :: r) 0 dot; put1 d 1 0) = Ok (Some dot :: Some 0 :: r).
Proof.
  intros. unfold put1. change (x :: y :: r) with ([] ++ [x] ++ (y :: r)).
  rewrite put_exact by reflexivity. cbn [bind map app].
  change (Some dot :: y :: r) with ([Some dot] ++ [y] ++ r).
  rewrite put_exact by reflexivity. reflexivity.
Qed.

Lemma cur_dir_plain : forall base, base <> [] -> ~ In slash base ->
  current_file_dir base = Ok (u ".").
Proof.
  intros base Hne Hs. unfold current_file_dir. apply strrchr_none in Hs. rewrite Hs.
  destruct base as [|c b]; [congruence|]. cbn [map app].
  destruct (map Some b ++ [Some 0]) as [|y r] eqn:E; [destruct b; discriminate|].
  rewrite put_dot. reflexivity.
Qed.

Lemma cur_dir_root : forall base, base <> [] -> ~ In slash base ->
  current_file_dir (slash :: base) = Ok (u ".").
Proof.
  intros base Hne Hs. unfold current_file_dir.
  pose proof (strrchr_app [] base slash Hs) as E0. cbn [app] in E0. rewrite E0.
  destruct base as [|c b]; [congruence|]. cbn [List.length map app].
  rewrite put_dot. reflexivity.
Qed.

Lemma binary_name_ok : forall p q, nz p -> ~ In dot q -> get_binary_name (p ++ dot :: q) = Ok p.
Proof.
  intros p q Hp Hq. unfold get_binary_name. rewrite strrchr_app by assumption.
  rewrite map_app. cbn [map]. rewrite <- app_assoc.
  change ((Some dot :: map Some q) ++ [Some 0]) with ([Some dot] ++ (map Some q ++ [Some 0])).
  unfold put1. rewrite put_exact with (cs := [0]); [|reflexivity|rewrite map_length; reflexivity].
  cbn [bind]. apply cstr_app. assumption.
Qed.

(** ** strrstr *)
Lemma starts_with_iff : forall sub s, starts_with s sub = true <-> exists r, s = sub ++ r.
Proof.
  induction sub as [|y sub IH]; intros s; cbn [starts_with].
  - split; [intro; now exists s|intros _; now destruct s].
  - destruct s as [|x s]; [split; [easy|intros (r & ?); easy]|].
    cbn [starts_with]. rewrite andb_true_iff, N.eqb_eq, IH. split.
    + intros (-> & r & ->). now exists r.
    + intros (r & H). inversion H; subst. split; [reflexivity|]. now exists r.
Qed.

Lemma strrstr_from_some : forall s sub i k, strrstr_from s sub i = Some k ->
  (k <= i)%nat /\ starts_with (skipn k s) sub = true /\
  forall j, (k < j <= i)%nat -> starts_with (skipn j s) sub = false.
Proof.
  intros s sub. induction i as [|i IH]; intros k; cbn [strrstr_from].
  - destruct (starts_with (skipn 0 s) sub) eqn:E; [|discriminate].
    intro H; inversion H; subst. repeat split; auto; lia.
  - destruct (starts_with (skipn (S i) s) sub) eqn:E.
    + intro H; inversion H; subst. repeat split; auto; lia.
    + intro H. apply IH in H as (L & S1 & S2). repeat split; auto.
      intros j Hj. destruct (Nat.eq_dec j (S i)) as [->|]; [assumption|]. apply S2. lia.
Qed.

Lemma strrstr_from_none : forall s sub i, strrstr_from s sub i = None ->
  forall j, (j <= i)%nat -> starts_with (skipn j s) sub = false.
Proof.
  intros s sub. induction i as [|i IH]; cbn [strrstr_from]; intros H j Hj.
  - destruct (starts_with (skipn 0 s) sub) eqn:E; [discriminate|].
    replace j with 0%nat by lia. assumption.
  - destruct (starts_with (skipn (S i) s) sub) eqn:E; [discriminate|].
    destruct (Nat.eq_dec j (S i)) as [->|]; [assumption|]. apply IH; [assumption|lia].
Qed.

Lemma skipn_occ : forall (p sub r : text), starts_with (skipn (List.length p) (p ++ sub ++ r)) sub = true.
Proof.
  intros. rewrite skipn_app, skipn_all, Nat.sub_diag. cbn [skipn app]. apply starts_with_iff. now exists r.
Qed.

Lemma strrstr_some : forall s sub i, strrstr s sub = Some i <->
  (exists p r, s = p ++ sub ++ r /\ List.length p = i) /\
  (forall p r, s = p ++ sub ++ r -> (List.length p <= i)%nat).
Proof.
  intros s sub i. unfold strrstr. split.
  - destruct (List.length s <? List.length sub)%nat eqn:E; [discriminate|].
    apply Nat.ltb_ge in E. intro H. apply strrstr_from_some in H as (L & S1 & S2).
    apply starts_with_iff in S1 as (r & S1). split.
    + exists (firstn i s), r. rewrite <- S1, firstn_skipn. split; [reflexivity|].
      rewrite firstn_length. lia.
    + intros p r' H. destruct (le_lt_dec (List.length p) i) as [|G]; [assumption|].
      exfalso. assert (F : starts_with (skipn (List.length p) s) sub = false).
      { apply S2. subst s. rewrite !app_length. lia. }
      subst s. rewrite skipn_occ in F. discriminate.
  - intros ((p & r & -> & L) & M).
    destruct (_ <? _)%nat eqn:E; [apply Nat.ltb_lt in E; rewrite !app_length in E; lia|].
    clear E. destruct (strrstr_from _ _ _) as [k|] eqn:E.
    + apply strrstr_from_some in E as (Lk & S1 & S2). f_equal.
      apply starts_with_iff in S1 as (r' & S1).
      assert (K : (k <= i)%nat).
      { pose proof (M (firstn k (p ++ sub ++ r)) r') as M'.
        rewrite <- S1, firstn_skipn in M'. specialize (M' eq_refl).
        rewrite firstn_length in M'. rewrite !app_length in *. lia. }
      destruct (Nat.eq_dec k i) as [|Ne]; [assumption|]. exfalso.
      assert (F : starts_with (skipn i (p ++ sub ++ r)) sub = false).
      { apply S2. rewrite !app_length in *. lia. }
      subst i. rewrite skipn_occ in F. discriminate.
    + exfalso. assert (F : starts_with (skipn i (p ++ sub ++ r)) sub = false).
      { eapply strrstr_from_none; [exact E|]. rewrite !app_length. lia. }
      subst i. rewrite skipn_occ in F. discriminate.
Qed.

Lemma strrstr_none : forall s sub, strrstr s sub = None <-> ~ exists p r, s = p ++ sub ++ r.
Proof.
  intros s sub. split.
  - intros H (p & r & E). unfold strrstr in H.
    destruct (_ <? _)%nat eqn:El; [apply Nat.ltb_lt in El; subst s; rewrite !app_length in El; lia|].
    assert (F : starts_with (skipn (List.length p) s) sub = false).
    { eapply strrstr_from_none; [exact H|]. subst s. rewrite !app_length. lia. }
    subst s. rewrite skipn_occ in F. discriminate.
  - intro H. destruct (strrstr s sub) as [i|] eqn:E; [|reflexivity].
    apply strrstr_some in E as ((p & r & E & _) & _). exfalso. apply H. now exists p, r.
Qed.

(** ** squash_argv *)
(** Every argument followed by a blank. *)
Definition blanked (l : list text) : text := flat_map (fun a => a ++ [chr " "]) l.

Lemma blanked_joined : forall l, l <> [] -> blanked l = joined l ++ [chr " "].
Proof.
  induction l as [|a l IH]; intro H; [congruence|].
  destruct l as [|b l]; [unfold blanked; cbn [flat_map joined]; apply app_nil_r|].
  change (blanked (a :: b :: l)) with ((a ++ [chr " "]) ++ blanked (b :: l)).
  rewrite IH by discriminate. cbn [joined]. rewrite <- !app_assoc. reflexivity.
Qed.

Lemma squash_loop_ok : forall l p q wrote,
  wrote = N.of_nat (List.length p) ->
  wrote + N.of_nat (List.length (blanked l)) < 2 ^ 64 ->
  forall m : buf, List.length m = List.length (blanked l) ->
  squash_loop l (p ++ m ++ q) wrote =
  Ok (p ++ map Some (blanked l) ++ q, wrote + N.of_nat (List.length (blanked l))).
Proof.
  induction l as [|a l IH]; intros p q wrote E B m Lm.
  - cbn in Lm. destruct m; [|discriminate]. cbn. rewrite N.add_0_r. reflexivity.
  - cbn [squash_loop]. change (blanked (a :: l)) with ((a ++ [chr " "]) ++ blanked l) in *.
    rewrite !app_length in *. cbn [List.length] in *.
    destruct (buf_split m (List.length a)) as (m1 & m' & -> & L1); [lia|].
    rewrite app_length in Lm.
    destruct m' as [|x m2]; [cbn in Lm; lia|]. cbn [List.length] in Lm.
    replace (p ++ (m1 ++ x :: m2) ++ q) with (p ++ (m1 ++ [x]) ++ (m2 ++ q))
      by (rewrite <- !app_assoc; reflexivity).
    rewrite put_exact; [|rewrite !app_length; cbn; lia|exact E].
    cbn [bind]. unfold strlen. rewrite size_sub_ok by lia.
    rewrite map_app, <- app_assoc. rewrite (app_assoc p). cbn [map].
    unfold put1. rewrite put_exact with (cs := [chr " "]); [|reflexivity|rewrite app_length, map_length; lia].
    cbn [bind map]. rewrite (app_assoc _ [Some (chr " ")]).
    rewrite IH; [|rewrite !app_length, map_length; cbn; lia|lia|lia].
    f_equal. f_equal; [|lia]. rewrite !map_app. cbn [map]. rewrite <- !app_assoc. reflexivity.
Qed.

Lemma joined_nz : forall l, Forall nz l -> nz (joined l).
Proof.
  induction l as [|a l IH]; intro H; [constructor|]. inversion H; subst.
  destruct l as [|b l]; [assumption|]. cbn [joined]. apply nz_app. split; [assumption|].
  apply nz_cons; [discriminate|]. now apply IH.
Qed.

Lemma squash_len : forall l,
  fold_right (fun a n => strlen a + 1 + n) 0 l = N.of_nat (List.length (blanked l)).
Proof.
  induction l as [|a l IH]; [reflexivity|]. cbn [fold_right].
  change (blanked (a :: l)) with ((a ++ [chr " "]) ++ blanked l).
  rewrite IH, !app_length. unfold strlen. cbn [List.length]. lia.
Qed.

Lemma squash_ok : forall l, l <> [] -> Forall nz l ->
  N.of_nat (List.length (joined l)) < 2 ^ 63 -> squash_argv l = Ok (joined l).
Proof.
  intros l Hne Hz B. unfold squash_argv. rewrite squash_len. unfold malloc. rewrite Nat2N.id.
  rewrite (blanked_joined l Hne). rewrite <- (app_nil_r (repeat None _)).
  rewrite <- (app_nil_l (repeat None _ ++ [])).
  rewrite squash_loop_ok.
  - cbn [bind app]. rewrite (blanked_joined l Hne). rewrite app_nil_r, map_app. cbn [map].
    rewrite app_length. cbn [List.length]. rewrite size_sub_ok by lia.
    rewrite <- (app_nil_r [Some (chr " ")]). unfold put1.
    rewrite put_exact with (cs := [0]); [|reflexivity|rewrite map_length; lia].
    cbn [bind map]. apply cstr_app. now apply joined_nz.
  - reflexivity.
  - rewrite (blanked_joined l Hne), app_length. cbn [List.length]. lia.
  - rewrite (blanked_joined l Hne), repeat_length. reflexivity.
Qed.

(** ** Output names *)
Lemma gen_total : forall path ext, nz path -> nz ext ->
  exists out, gen_filename path ext = Ok out /\ hidden_sibling ext path out.
Proof.
  intros path ext Hp He. destruct (has_base_exists path) as (base & Hs & [->|(dir & ->)]).
  - eexists. split; [apply gen_plain; assumption|]. now constructor.
  - apply nz_app in Hp as (Hd & Hb). inversion Hb; subst.
    eexists. split; [apply gen_dir; assumption|]. now constructor.
Qed.

Lemma last_sep_unique : forall (c : N) p1 q1 p2 q2, ~ In c q1 -> ~ In c q2 ->
  p1 ++ c :: q1 = p2 ++ c :: q2 -> p1 = p2 /\ q1 = q2.
Proof.
  intros c p1 q1 p2 q2 N1 N2 E.
  pose proof (strrchr_app p1 q1 c N1) as S1. rewrite E, (strrchr_app p2 q2 c N2) in S1.
  inversion S1 as [L]. clear S1.
  assert (F : firstn (List.length p1) (p1 ++ c :: q1) = firstn (List.length p2) (p2 ++ c :: q2))
    by (rewrite E, L; reflexivity).
  rewrite !firstn_app, !firstn_all, !Nat.sub_diag in F. cbn [firstn] in F. rewrite !app_nil_r in F.
  subst p2. apply app_inv_head in E. inversion E. auto.
Qed.

Lemma not_in_app : forall (c : N) a b, ~ In c a -> ~ In c b -> ~ In c (a ++ b).
Proof. intros c a b Ha Hb H. apply in_app_or in H. tauto. Qed.

Lemma not_in_dotted : forall base ext, ~ In slash base -> ~ In slash ext -> ~ In slash (dot :: base ++ dot :: ext).
Proof.
  intros base ext Hb He [H|H]; [discriminate|]. apply in_app_or in H as [H|[H|H]]; [auto|discriminate|auto].
Qed.

Lemma dotted_inj : forall b1 e1 b2 e2, ~ In dot e1 -> ~ In dot e2 ->
  dot :: b1 ++ dot :: e1 = dot :: b2 ++ dot :: e2 -> b1 = b2 /\ e1 = e2.
Proof. intros b1 e1 b2 e2 H1 H2 E. inversion E. now apply (last_sep_unique dot). Qed.

Lemma hs_cases : forall e p o, hidden_sibling e p o ->
  (~ In slash p /\ o = dot :: p ++ dot :: e) \/
  (exists dir base, ~ In slash base /\ p = dir ++ slash :: base /\ o = dir ++ slash :: dot :: base ++ dot :: e).
Proof.
  intros e p o H. destruct H as [base N|dir base N]; [left; auto|right]. exists dir, base. auto.
Qed.

Lemma hidden_inj : forall e1 p1 o e2 p2,
  ~ In dot e1 -> ~ In dot e2 -> ~ In slash e1 -> ~ In slash e2 ->
  hidden_sibling e1 p1 o -> hidden_sibling e2 p2 o -> p1 = p2 /\ e1 = e2.
Proof.
  intros e1 p1 o e2 p2 D1 D2 S1 S2 H1 H2.
  apply hs_cases in H1 as [(N1 & E1)|(d1 & b1 & N1 & -> & E1)];
  apply hs_cases in H2 as [(N2 & E2)|(d2 & b2 & N2 & -> & E2)]; subst o.
  - apply dotted_inj in E2; assumption.
  - exfalso. apply (not_in_dotted _ _ N1 S1). rewrite E2. apply in_or_app. right. now left.
  - exfalso. apply (not_in_dotted _ _ N2 S2). rewrite <- E2. apply in_or_app. right. now left.
  - apply (last_sep_unique slash) in E2 as (-> & E2); try (now apply not_in_dotted).
    apply dotted_inj in E2 as (-> & ->); auto.
Qed.

Lemma gen_inj : forall e1 p1 e2 p2 o, nz p1 -> nz e1 -> nz p2 -> nz e2 ->
  ~ In dot e1 -> ~ In dot e2 -> ~ In slash e1 -> ~ In slash e2 ->
  gen_filename p1 e1 = Ok o -> gen_filename p2 e2 = Ok o -> p1 = p2 /\ e1 = e2.
Proof.
  intros e1 p1 e2 p2 o P1 E1 P2 E2 D1 D2 S1 S2 G1 G2.
  destruct (gen_total p1 e1 P1 E1) as (o1 & G1' & H1). rewrite G1 in G1'. inversion G1'; subst o1.
  destruct (gen_total p2 e2 P2 E2) as (o2 & G2' & H2). rewrite G2 in G2'. inversion G2'; subst o2.
  now apply (hidden_inj e1 p1 o e2 p2).
Qed.

Lemma gen_not_source : forall path ext out src,
  nz path -> nz ext -> ~ In dot ext -> ext <> u "sk" ->
  gen_filename path ext = Ok out -> out <> src ++ u ".sk".
Proof.
  intros path ext out src Hp He Hd Hne G E.
  destruct (gen_total path ext Hp He) as (o & G' & H). rewrite G in G'. inversion G'; subst o.
  change (u ".sk") with (dot :: u "sk") in E.
  assert (K : ~ In dot (u "sk")) by (cbn; intros [|[|[]]]; discriminate).
  apply hs_cases in H as [(N & EO)|(d & b & N & -> & EO)]; subst out.
  - rewrite app_comm_cons in EO. apply (last_sep_unique dot) in EO as (_ & EO); auto.
  - rewrite app_comm_cons, app_comm_cons, app_assoc in EO.
    apply (last_sep_unique dot) in EO as (_ & EO); auto.
Qed.

(** ** Linkage names *)
Lemma mangle_inj : forall path1 m1 n1 path2 m2 n2 o,
  has_base path1 (m1 ++ u ".sk") -> has_base path2 (m2 ++ u ".sk") ->
  nz m1 -> nz m2 -> nz n1 -> nz n2 -> fits m1 -> fits m2 -> fits n1 -> fits n2 ->
  ~ In dot n1 -> ~ In dot n2 ->
  mangle_name path1 n1 = Ok o -> mangle_name path2 n2 = Ok o -> m1 = m2 /\ n1 = n2.
Proof.
  intros path1 m1 n1 path2 m2 n2 o B1 B2 Zm1 Zm2 Zn1 Zn2 Fm1 Fm2 Fn1 Fn2 D1 D2 G1 G2.
  rewrite (mangle_ok path1 m1 n1) in G1 by assumption.
  rewrite (mangle_ok path2 m2 n2) in G2 by assumption.
  inversion G1 as [E1]. inversion G2 as [E2]. subst o. symmetry in E2.
  apply (last_sep_unique dot) in E2; auto.
Qed.

Lemma main_no_clash : forall path1 m1 path2 m2 name o,
  has_base path1 (m1 ++ u ".sk") -> has_base path2 (m2 ++ u ".sk") ->
  nz m1 -> nz m2 -> nz name -> fits m1 -> fits m2 -> fits name ->
  m2 <> [] -> hd 0 m2 <> dot ->
  create_main_func_name (Some path1) = Ok o -> mangle_name path2 name <> Ok o.
Proof.
  intros path1 m1 path2 m2 name o B1 B2 Z1 Z2 Zn F1 F2 Fn Ne Hd G1 G2.
  rewrite (main_name_ok path1 m1) in G1 by assumption.
  rewrite (mangle_ok path2 m2 name) in G2 by assumption.
  assert (E : m2 ++ dot :: name = dot :: m1) by congruence.
  destruct m2 as [|c m2]; [congruence|]. apply (f_equal (hd 0)) in E. apply Hd. exact E.
Qed.

Lemma name_accepted_iff : forall path, name_accepted path = true <->
  (exists p r, path = p ++ u ".sk" ++ r /\ p <> []) /\ ~ (exists p r, path = p ++ u "/.sk" ++ r).
Proof.
  intro path. unfold name_accepted. split.
  - destruct (strrstr path (u ".sk")) as [[|i]|] eqn:E; try discriminate.
    destruct (strrstr path (u "/.sk")) as [j|] eqn:E2; [discriminate|]. intros _.
    apply strrstr_none in E2. split; [|assumption].
    apply strrstr_some in E as ((p & r & E & L) & _). exists p, r. split; [assumption|].
    intros ->. discriminate.
  - intros ((p & r & E & Np) & N2).
    destruct (strrstr path (u ".sk")) as [[|i]|] eqn:E1.
    + exfalso. apply strrstr_some in E1 as (_ & M). specialize (M _ _ E).
      destruct p; [congruence|cbn in M; lia].
    + apply strrstr_none in N2. now rewrite N2.
    + exfalso. apply strrstr_none in E1. apply E1. now exists p, r.
Qed.
