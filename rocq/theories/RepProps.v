(* Reports, displays and groups of functions: what holds and what does not. *)
From Coq Require Import String Ascii List Arith Bool Lia.
From Verif Require Import RepModel RepSpec RepProofs.
Import ListNotations.
Local Open Scope string_scope.

(* ---- reports *)
(* A message without braces, at a level that is not Log.Error, is written on the stream and
   printed exactly when the level was asked for, and the program goes on. *)
Theorem report_shown g l msg args e :
  lv_id l <> lv_id log_error -> plain msg ->
  let '(g', r) := report l msg args e g in
  r = Returned /\ enabled g' = enabled g /\
  (asked (enabled g) l ->
     stream g' = option_map (fun s => s ++ msg) (stream g) /\
     stdout g' = List.app (stdout g) (if dump_stdout g then [lv_name l ++ ": " ++ msg] else [])) /\
  (~ asked (enabled g) l -> stream g' = stream g /\ stdout g' = stdout g).
Proof.
  intros N P. unfold report. rewrite (pyformat_plain msg args P), (proj2 (Nat.eqb_neq _ _) N).
  pose proof (filter_iff (enabled g) l) as FI.
  destruct (filter_log_level (enabled g) l); cbn [andb].
  - destruct g as [en st so ds ex br]; cbn [enabled stream stdout dump_stdout] in *.
    assert (A : asked en l) by (apply FI; reflexivity).
    destruct st, ds; cbn [orb write print enabled stream stdout dump_stdout option_map];
      split; [reflexivity | split; [reflexivity | split; [intros _; split; [reflexivity |] | intro C; contradiction]] |
              reflexivity | split; [reflexivity | split; [intros _; split; [reflexivity |] | intro C; contradiction]] |
              reflexivity | split; [reflexivity | split; [intros _; split; [reflexivity |] | intro C; contradiction]] |
              reflexivity | split; [reflexivity | split; [intros _; split; [reflexivity |] | intro C; contradiction]]];
      rewrite ?app_nil_r; reflexivity.
  - split; [reflexivity | split; [reflexivity | split; [intro A; apply FI in A; discriminate | intros _; split; reflexivity]]].
Qed.

(* What enabling a level adds. *)
Theorem enable_adds g id n sub l :
  asked (enabled (enable_level id n sub g)) l <->
  asked (enabled g) l \/ (lv_name l = n /\ (sub = None \/ (sub <> None /\ lv_sub l = sub))).
Proof.
  rewrite <- !filter_iff. cbn [enable_level enabled]. rewrite filter_app, orb_true_iff, lmatch_iff. cbn [lv_name lv_sub].
  split; (intros [A | [A B]]; [left; exact A | right; split; [symmetry; exact A |]]);
    (destruct B as [B | [B C]]; [left; exact B | right; split; [exact B | symmetry; exact C]]).
Qed.

(* A report at Log.Error never returns, whatever was asked for and whatever the message. *)
Theorem error_never_returns g msg args e : snd (report log_error msg args e g) <> Returned.
Proof.
  unfold report. destruct (if _ && _ then _ else _); [| discriminate].
  change (Nat.eqb (lv_id log_error) (lv_id log_error)) with true. cbv iota.
  destruct (break_on_error g), (exit_on_error g), e, (pyformat msg args); cbn [snd]; discriminate.
Qed.
(* The exception given is the one raised, unless the program exits on errors. *)
Theorem error_raised g msg args e :
  plain msg -> exit_on_error g = false -> snd (report log_error msg args (Some e) g) = Raised e.
Proof.
  intros P X. unfold report. rewrite (pyformat_plain msg args P), X.
  destruct (_ && _); change (Nat.eqb (lv_id log_error) (lv_id log_error)) with true; cbv iota;
    destruct (break_on_error g); reflexivity.
Qed.
(* Sub-levels of Log.Error, and other objects of the same name, do not stop anything. *)
Theorem error_sub_level_refuted g id sub msg args e :
  id <> 0 -> plain msg -> snd (report (gen_sub_level id log_error sub) msg args e g) = Returned.
Proof.
  intros N P. pose proof (report_shown g (gen_sub_level id log_error sub) msg args e N P) as H.
  destruct (report _ _ _ _ _) as [g' r]. exact (proj1 H).
Qed.
(* Asking for a level changes the program: a message that is already formatted, and has a
   brace, is formatted again when it is displayed, and only then. *)
Theorem verbose_refuted g l a b e :
  lv_id l <> lv_id log_error -> plain a -> plain b -> ~ asked (enabled g) l -> dump_stdout g = true ->
  snd (report l (a ++ "{" ++ b) [] e g) = Returned /\
  forall id, snd (report l (a ++ "{" ++ b) [] e (enable_level id (lv_name l) None g)) = FormatFailed.
Proof.
  intros N A B Q D. split.
  - unfold report. destruct (filter_log_level (enabled g) l) eqn:E; [apply filter_iff in E; contradiction |].
    cbn [andb]. rewrite (proj2 (Nat.eqb_neq _ _) N). reflexivity.
  - intro id. unfold report. rewrite (pyformat_open a b [] A B).
    assert (E : filter_log_level (enabled (enable_level id (lv_name l) None g)) l = true).
    { apply filter_iff, enable_adds. right. split; [reflexivity | left; reflexivity]. }
    rewrite E. cbn [enable_level dump_stdout stream]. rewrite D, orb_true_r. reflexivity.
Qed.
(* Arguments are put in the fields in order. *)
Theorem message_fields a b c x y :
  plain a -> plain b -> plain c -> pyformat (a ++ "{}" ++ b ++ "{}" ++ c) [x; y] = Some (a ++ x ++ b ++ y ++ c).
Proof.
  intros A B C. rewrite (pyformat_field a _ x [y] A), (pyformat_field b _ y [] B), (pyformat_plain c [] C). reflexivity.
Qed.
(* A field without argument, and a brace alone, raise. *)
Theorem message_missing a b : plain a -> plain b -> pyformat (a ++ "{}" ++ b) [] = None /\ forall args, pyformat (a ++ "}" ++ b) args = None.
Proof.
  intros A B. split.
  - rewrite (pyformat_app_plain a _ [] A). reflexivity.
  - intro args. rewrite (pyformat_app_plain a _ args A).
    change ("}" ++ b) with (String rbrace b). cbn [pyformat]. unfold lbrace, rbrace.
    change (Ascii.eqb "}" "{") with false. rewrite Ascii.eqb_refl. cbv iota.
    destruct b as [| d u]; [reflexivity |]. destruct B as [_ [R _]]. rewrite (proj2 (Ascii.eqb_neq _ _) R). reflexivity.
Qed.
(* Nothing separates the messages on the stream: two messages are written as one. *)
Theorem stream_separation_refuted g l m1 m2 s :
  lv_id l <> lv_id log_error -> plain m1 -> plain m2 -> plain (m1 ++ m2) -> asked (enabled g) l -> stream g = Some s ->
  stream (fst (report l m2 [] None (fst (report l m1 [] None g)))) = stream (fst (report l (m1 ++ m2) [] None g)).
Proof.
  intros N P1 P2 P12 A S1.
  pose proof (report_shown g l m1 [] None N P1) as H1. destruct (report l m1 [] None g) as [g1 r1].
  destruct H1 as [_ [E1 [H1 _]]]. destruct (H1 A) as [T1 _].
  pose proof (report_shown g1 l m2 [] None N P2) as H2. cbn [fst]. destruct (report l m2 [] None g1) as [g2 r2].
  destruct H2 as [_ [_ [H2 _]]]. rewrite E1 in H2. destruct (H2 A) as [T2 _].
  pose proof (report_shown g l (m1 ++ m2) [] None N P12) as H3. destruct (report l (m1 ++ m2) [] None g) as [g3 r3].
  destruct H3 as [_ [_ [H3 _]]]. destruct (H3 A) as [T3 _].
  cbn [fst]. rewrite T2, T1, T3, S1. cbn [option_map]. f_equal.
  generalize s. intro u. induction u as [| c u IHu]; [reflexivity | cbn [append]; rewrite IHu; reflexivity].
Qed.

(* ---- displays *)
Theorem vectors_consistent n conv :
  0 < n -> In conv ["%a"; "%d"; "%u"; "%ld"; "%lu"] -> consistent (vector_display conv n).
Proof.
  intros N I. apply vector_consistent; [exact N |].
  repeat (destruct I as [<- | I]; [reflexivity |]). destruct I.
Qed.
Theorem displays_consistent :
  consistent DISPLAY_float32 /\ consistent DISPLAY_ftox /\ consistent DISPLAY_lftolx /\ consistent DISPLAY_ddtolx /\
  consistent DISPLAY_DD /\ consistent DISPLAY_TD /\ consistent DISPLAY_DS_v4.
Proof.
  assert (T : forall d k j, (forall v, arguments (pre_process d v) = k + j * occurs ","%char v) ->
                       k = conversions (format_string d) -> consistent d).
  { intros d k j H E v F. rewrite H, (occurs_free _ _ F), E. lia. }
  split; [| split; [| split; [| split; [| split; [| split]]]]].
  - apply (T _ 1 1); [intro v; unfold arguments; cbn [pre_process DISPLAY_float32]; lia | reflexivity].
  - apply (T _ 2 2); [intro v; unfold arguments; cbn [pre_process DISPLAY_ftox]; rewrite !occurs_app | reflexivity].
    change (occurs "," ", float_to_32b_encoding(") with 1. change (occurs "," ")") with 0. lia.
  - apply (T _ 2 2); [intro v; unfold arguments; cbn [pre_process DISPLAY_lftolx]; rewrite !occurs_app | reflexivity].
    change (occurs "," ", double_to_64b_encoding(") with 1. change (occurs "," ")") with 0. lia.
  - apply (T _ 2 2); [intro v; unfold arguments; cbn [pre_process DISPLAY_ddtolx]; rewrite !occurs_app | reflexivity].
    change (occurs "," "double_to_64b_encoding(") with 0. change (occurs "," ".hi), double_to_64b_encoding(") with 1.
    change (occurs "," ".lo)") with 0. lia.
  - apply (T _ 2 2); [intro v; unfold arguments; cbn [pre_process DISPLAY_DD]; rewrite !occurs_app | reflexivity].
    change (occurs "," ".hi, ") with 1. change (occurs "," ".lo") with 0. lia.
  - apply (T _ 3 3); [intro v; unfold arguments; cbn [pre_process DISPLAY_TD]; rewrite !occurs_app | reflexivity].
    change (occurs "," ".hi, ") with 1. change (occurs "," ".me, ") with 1. change (occurs "," ".lo") with 0. lia.
  - intros v F. unfold DISPLAY_DS_v4. rewrite limbs_arguments, limbs_conversions by (try lia; exact F). reflexivity.
Qed.
(* Vectors of eight pairs: sixteen conversions, twelve arguments. *)
Theorem eight_pairs_refuted v :
  free ","%char v -> arguments (pre_process DISPLAY_DS_v8 v) = 12 /\ conversions (format_string DISPLAY_DS_v8) = 16.
Proof.
  intro F. unfold DISPLAY_DS_v8. rewrite limbs_arguments, limbs_conversions by (try lia; exact F). split; reflexivity.
Qed.

(* Fixed-point formats, of at most 128 bits. *)
Theorem fixed_consistent shift scale f :
  (forall n, occurs ","%char (shift n) = 0) -> (forall n, occurs ","%char (scale n) = 0) ->
  consistent (new_display shift scale f).
Proof.
  intros SH SC v F. pose proof (occurs_free _ _ F) as V.
  assert (PF : conversions (pri f) = 1).
  { unfold conversions, pri. rewrite !occurs_app. change (occurs "%" "%""PRI") with 1. change (occurs "%" """") with 0.
    assert (E1 : occurs "%" (if fx_signed f then "i" else "u") = 0) by (destruct (fx_signed f); reflexivity).
    assert (E2 : occurs "%" (size_name (c_bit_size f)) = 0).
    { unfold size_name. repeat (destruct (Nat.eqb _ _); [reflexivity |]). reflexivity. }
    rewrite E1, E2. reflexivity. }
  unfold new_display. destruct (Nat.eqb (fx_frac f) 0).
  { cbn [pre_process format_string]. rewrite PF. unfold arguments. rewrite V. reflexivity. }
  unfold c_bit_size at 1.
  destruct (Nat.leb (c_bit_size f) 64) eqn:L.
  { fold (c_bit_size f). rewrite L. cbn [pre_process format_string]. unfold arguments, conversions, fixed_point_beautify in *.
    rewrite !occurs_app, V, SC, PF. reflexivity. }
  fold (c_bit_size f). rewrite L.
  assert (E : c_bit_size f = 128).
  { apply Nat.leb_gt in L. unfold c_bit_size in *. cbv zeta in *.
    repeat (destruct (Nat.leb _ _); [lia |]). reflexivity. }
  rewrite E. change (Nat.div 128 64) with 2. cbn [pre_process format_string]. unfold arguments, conversions, multi_word_beautify.
  cbn [rep String.concat]. rewrite !occurs_app, V, SC, !SH. reflexivity.
Qed.
(* The sign is not in the key of the displays: after a signed format, whatever else is built,
   the unsigned format of the same sizes is displayed as signed, and conversely. *)
Theorem display_sign_refuted shift scale f g fs m :
  lookup (fx_int f, fx_frac f, fx_support f) m = None ->
  fx_int g = fx_int f -> fx_frac g = fx_frac f -> fx_support g = fx_support f -> fx_signed g = negb (fx_signed f) ->
  fx_frac f = 0 ->
  format_string (fst (build_display shift scale g (build_all shift scale (f :: fs) m))) = pri f /\ pri f <> pri g.
Proof.
  intros L I Fr Su Si Z1. split.
  - rewrite (built_again shift scale f g fs m L) by (unfold keyof; rewrite I, Fr, Su; reflexivity).
    unfold new_display. rewrite Z1. reflexivity.
  - unfold pri, c_bit_size. rewrite I, Fr, Si. destruct (fx_signed f); cbn [negb append]; discriminate.
Qed.
(* Formats of the same sign and sizes always have the same display. *)
Theorem display_kept shift scale f fs m :
  lookup (fx_int f, fx_frac f, fx_support f) m = None ->
  fst (build_display shift scale f (build_all shift scale (f :: fs) m)) = new_display shift scale f.
Proof. intro L. exact (built_again shift scale f f fs m L eq_refl). Qed.
(* Integers of 65 to 128 bits are displayed with a macro that C does not have. *)
Theorem wide_macro_refuted shift scale f :
  fx_frac f = 0 -> 64 < fx_int f -> In (format_string (new_display shift scale f)) ["%""PRIi128"""; "%""PRIu128"""].
Proof.
  intros Z1 W. unfold new_display. rewrite Z1. cbn [Nat.eqb format_string].
  assert (E : c_bit_size f = 128).
  { unfold c_bit_size. rewrite Z1, Nat.add_0_r. cbv zeta.
    rewrite !(proj2 (Nat.leb_gt _ _)) by lia. reflexivity. }
  unfold pri. rewrite E. destruct (fx_signed f); [left | right; left]; reflexivity.
Qed.
(* Two words are printed one after the other, the lowest first, with no width: words whose
   digits are split elsewhere are printed alike. *)
Theorem two_words_refuted hex a b :
  (forall x y, hex (16 * x + y) = hex x ++ hex y \/ x = 0 \/ 16 <= y) -> 0 < a -> b < 16 ->
  forall c, 0 < c -> c < 16 -> two_words hex (16 * a + c) b = two_words hex a (16 * c + b).
Proof.
  intros H A B c C1 C2. unfold two_words.
  destruct (H a c) as [E | [E | E]]; [| lia | lia]. destruct (H c b) as [E2 | [E2 | E2]]; [| lia | lia].
  rewrite E, E2. generalize (hex a). induction s as [| ch t IH]; [reflexivity | cbn [append]; rewrite IH; reflexivity].
Qed.

(* ---- functions *)
(* Arguments added after the object of a function was asked for are not in it. *)
Theorem object_stale_refuted f p :
  f_object f = None ->
  let '(f1, o1) := get_function_object f in
  let '(f2, o2) := get_function_object (add_input_variable f1 p) in
  o1 = f_args f /\ o2 = f_args f /\ f_args f2 = (f_args f ++ [p])%list.
Proof.
  intro N. unfold get_function_object at 1. rewrite N. cbn. split; [reflexivity | split; reflexivity].
Qed.
Theorem object_arguments f ps :
  f_object f = None ->
  snd (get_function_object (fold_left add_input_variable ps f)) = (f_args f ++ ps)%list.
Proof.
  revert f. induction ps as [| p t IH]; intros f N.
  - cbn [fold_left]. unfold get_function_object. rewrite N, app_nil_r. reflexivity.
  - cbn [fold_left]. rewrite IH by exact N. cbn [add_input_variable f_args]. rewrite <- app_assoc. reflexivity.
Qed.

(* ---- groups *)
Theorem group_visits g ext :
  forall f, In f (apply_to_all g ext) <-> (In f (core g) \/ In f (sub g)) /\ (ext = true \/ f_external f = false).
Proof.
  assert (V : forall l f, In f (visits l ext) <-> In f l /\ (ext = true \/ f_external f = false)).
  { induction l as [| a t IH]; intro f; cbn [visits]; [split; [intros [] | intros [[] _]] |].
    destruct ext; cbn [orb].
    - cbn [In]. rewrite IH. split; [intros [E | [E _]]; (split; [| left; reflexivity]); [left | right]; exact E |].
      intros [[E | E] X]; [left; exact E | right; split; assumption].
    - destruct (f_external a) eqn:X; cbn [negb In].
      + rewrite IH. split; [intros [I P]; split; [right; exact I | exact P] |].
        intros [[-> | I] P]; [destruct P as [P | P]; [discriminate | congruence] | split; assumption].
      + rewrite IH. split; [intros [-> | [I P]]; split; [left; reflexivity | right; exact X | right; exact I | exact P] |].
        intros [[E | I] P]; [left; exact E | right; split; assumption]. }
  intro f. unfold apply_to_all. rewrite in_app_iff, !V. tauto.
Qed.
(* Merging visits the functions of both groups as many times as before. *)
Theorem merge_visits g h demote ext :
  length (apply_to_all (merge_with_group g h demote) ext) = length (apply_to_all g ext) + length (apply_to_all h ext) /\
  forall f, In f (apply_to_all (merge_with_group g h demote) ext) <-> In f (apply_to_all g ext) \/ In f (apply_to_all h ext).
Proof.
  assert (A : forall a b, visits (a ++ b) ext = (visits a ext ++ visits b ext)%list).
  { induction a as [| x t IH]; intro b; [reflexivity |]. cbn [app visits].
    destruct (ext || negb (f_external x)); rewrite IH; reflexivity. }
  split.
  - unfold apply_to_all, merge_with_group. destruct demote; cbn [core sub]; rewrite !A, !app_length; lia.
  - intro f. rewrite !group_visits. unfold merge_with_group. destruct demote; cbn [core sub]; rewrite !in_app_iff; tauto.
Qed.
Lemma find_app' {A} (p : A -> bool) (a b : list A) :
  find p (a ++ b)%list = match find p a with Some x => Some x | None => find p b end.
Proof. induction a as [| x t IH]; [reflexivity |]. cbn [app find]. destruct (p x); [reflexivity | exact IH]. Qed.
(* With the core functions of the other group made sub-functions, names keep the function
   they had in the group; *)
Theorem merge_names g h n f : get_by_name g n = Some f -> get_by_name (merge_with_group g h true) n = Some f.
Proof.
  unfold get_by_name, merge_with_group. cbn [core sub]. intro H.
  rewrite <- !app_assoc, app_assoc, find_app', H. reflexivity.
Qed.
(* not with the lists merged one by one: a core function of the other group hides a
   sub-function. *)
Theorem merge_names_refuted g h n f c :
  find (fun x => String.eqb (f_name x) n) (core g) = None -> get_by_name g n = Some f ->
  find (fun x => String.eqb (f_name x) n) (core h) = Some c ->
  get_by_name (merge_with_group g h false) n = Some c.
Proof.
  intros NC _ HC. unfold get_by_name, merge_with_group. cbn [core sub].
  rewrite <- app_assoc, find_app', NC, find_app', HC. reflexivity.
Qed.
(* Nor do names keep the function they had in the other group: its sub-functions now come
   before its core functions. *)
Theorem merge_other_names_refuted g h n s c :
  get_by_name g n = None ->
  find (fun x => String.eqb (f_name x) n) (core h) = Some c -> find (fun x => String.eqb (f_name x) n) (sub h) = Some s ->
  get_by_name h n = Some c /\ get_by_name (merge_with_group g h true) n = Some s.
Proof.
  intros NG HC HS. unfold get_by_name, merge_with_group in *. cbn [core sub]. split.
  - rewrite find_app', HC. reflexivity.
  - rewrite <- !app_assoc, app_assoc, find_app', NG, find_app', HS. reflexivity.
Qed.
(* Merging a group that has sub-functions with itself does not end. *)
Theorem merge_itself_refuted g : sub g <> [] -> forall fuel, self_loop fuel 0 (sub g) = None.
Proof. intros N fuel. apply self_loop_never. destruct (sub g); [contradiction | cbn [length]; lia]. Qed.

(* ---- examples *)
Definition ex_info : level := {| lv_id := 1; lv_name := "Info"; lv_sub := Some "passes" |}.
Definition ex_log : log := {| enabled := [log_error]; stream := Some ""; stdout := []; dump_stdout := true; exit_on_error := false; break_on_error := false |}.
Example ex_quiet : report ex_info "hello" [] None ex_log = (ex_log, Returned).
Proof. reflexivity. Qed.
Example ex_shown : let '(g, r) := report ex_info "pass {}" ["a"] None (enable_level 9 "Info" (Some "passes") ex_log) in
  stdout g = ["Info: pass a"] /\ stream g = Some "pass a" /\ r = Returned.
Proof. split; [reflexivity | split; reflexivity]. Qed.
Example ex_other_sub : stdout (fst (report ex_info "x" [] None (enable_level 9 "Info" (Some "other") ex_log))) = [].
Proof. reflexivity. Qed.
Example ex_error : snd (report log_error "no {}" ["way"] None ex_log) = Raised "no way".
Proof. reflexivity. Qed.
Example ex_sub_error : snd (report (gen_sub_level 5 log_error "fatal") "stop" [] None ex_log) = Returned.
Proof. reflexivity. Qed.
Example ex_verbose :
  snd (report ex_info "set {a" [] None ex_log) = Returned /\
  snd (report ex_info "set {a" [] None (enable_level 9 "Info" None ex_log)) = FormatFailed.
Proof. split; reflexivity. Qed.
Example ex_vector : format_string (vector_display "%a" 2) = "[%a, %a]" /\ pre_process (vector_display "%a" 2) "x" = "x[0], x[1]".
Proof. split; reflexivity. Qed.
Example ex_pairs : pre_process DISPLAY_DS_v8 "x" =
  "x.hi[0], x.hi[1], x.hi[2], x.hi[3], x.hi[4], x.hi[5], x.hi[6], x.hi[7], x.lo[0], x.lo[1], x.lo[2], x.lo[3]".
Proof. reflexivity. Qed.
Definition ex_s : fixfmt := {| fx_int := 12; fx_frac := 0; fx_signed := true; fx_support := None |}.
Definition ex_u : fixfmt := {| fx_int := 12; fx_frac := 0; fx_signed := false; fx_support := None |}.
Example ex_sign : forall shift scale, format_string (fst (build_display shift scale ex_u (build_all shift scale [ex_s] []))) = "%""PRIi16""".
Proof. reflexivity. Qed.
Definition ex_f (i : nat) (n : string) : func := {| f_id := i; f_name := n; f_external := false; f_args := []; f_object := None |}.
Definition ex_g : group := {| core := [ex_f 0 "exp"]; sub := [ex_f 1 "aux"] |}.
Definition ex_h : group := {| core := [ex_f 2 "aux"]; sub := [ex_f 3 "aux"] |}.
Example ex_merge : get_by_name (merge_with_group ex_g ex_h true) "aux" = Some (ex_f 1 "aux") /\
  get_by_name (merge_with_group ex_g ex_h false) "aux" = Some (ex_f 2 "aux") /\
  map f_id (apply_to_all (merge_with_group ex_g ex_h true) false) = [1; 3; 2; 0].
Proof. split; [reflexivity | split; reflexivity]. Qed.
Definition ex_hex (n : nat) : string := if Nat.ltb n 16 then digit n else digit (Nat.div n 16) ++ digit (Nat.modulo n 16).
Example ex_words : two_words ex_hex (16 * 1 + 1) 2 = "112" /\ two_words ex_hex 1 (16 * 1 + 2) = "112".
Proof. split; reflexivity. Qed.
Example ex_itself : self_loop 100 0 (sub ex_g) = None.
Proof. reflexivity. Qed.
Example ex_object : snd (get_function_object (add_input_variable (fst (get_function_object (ex_f 0 "f"))) 7)) = [].
Proof. reflexivity. Qed.

Print Assumptions report_shown. Print Assumptions enable_adds. Print Assumptions error_never_returns.
Print Assumptions error_raised. Print Assumptions error_sub_level_refuted. Print Assumptions verbose_refuted.
Print Assumptions message_fields. Print Assumptions message_missing. Print Assumptions stream_separation_refuted. Print Assumptions vectors_consistent.
Print Assumptions displays_consistent. Print Assumptions eight_pairs_refuted. Print Assumptions fixed_consistent.
Print Assumptions display_sign_refuted. Print Assumptions display_kept. Print Assumptions wide_macro_refuted.
Print Assumptions two_words_refuted. Print Assumptions object_stale_refuted. Print Assumptions object_arguments.
Print Assumptions group_visits. Print Assumptions merge_visits. Print Assumptions merge_names.
Print Assumptions merge_names_refuted. Print Assumptions merge_other_names_refuted. Print Assumptions merge_itself_refuted.
