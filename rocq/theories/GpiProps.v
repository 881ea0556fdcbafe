(* Intervals in the answers of Gappa: what is read, and what is wrong. *)
From Coq Require Import List Arith Bool Ascii Lia.
From Coq Require String.
From Verif Require Import GpiModel.
Import ListNotations.

(* text with comments between braces: plain, {comment}, plain, {comment}, ..., tail *)
Fixpoint render (l : list (text * text)) (tail : text) : text :=
  match l with [] => tail | (p, c) :: q => p ++ [lbrace] ++ c ++ [rbrace] ++ render q tail end.
Fixpoint plain (l : list (text * text)) (tail : text) : text :=
  match l with [] => tail | (p, _) :: q => p ++ plain q tail end.
Definition no_braces (s : text) : Prop := ~ In lbrace s /\ ~ In rbrace s.
Definition simple (l : list (text * text)) (tail : text) : Prop := (forall p c, In (p, c) l -> no_braces p /\ no_braces c) /\ no_braces tail.

(* bare s u: u is s without its blanks and square brackets *)
Inductive bare : text -> text -> Prop :=
| bare_nil : bare [] []
| bare_drop : forall c s u, (c = " " \/ c = "[" \/ c = "]")%char -> bare s u -> bare (c :: s) u
| bare_keep : forall c s u, (c <> " " /\ c <> "[" /\ c <> "]")%char -> bare s u -> bare (c :: s) (c :: u).
Lemma bare_strip : forall s u, bare s u -> strip s = u.
Proof.
  induction 1 as [|c s u D B IH|c s u [A [D E]] B IH]; [reflexivity| |]; unfold strip in *; cbn [filter].
  - destruct D as [->|[->| ->]]; cbn [negb blank Ascii.eqb orb]; exact IH.
  - assert (X : blank c = false) by (unfold blank; apply Ascii.eqb_neq in A, D, E; now rewrite A, D, E). rewrite X. cbn [negb]. now rewrite IH.
Qed.

Lemma index_none : forall c s, ~ In c s -> index c s = None.
Proof. intros c. induction s as [|x t IH]; intro N; [reflexivity|]. cbn [index]. destruct (Ascii.eqb_spec x c) as [->|_]; [exfalso; apply N; now left|]. rewrite IH; [reflexivity|]. intro; apply N; now right. Qed.
Lemma index_app : forall c s t, ~ In c s -> index c (s ++ c :: t) = Some (length s).
Proof.
  intros c. induction s as [|x s IH]; intros t N; cbn [index app length]; [now rewrite Ascii.eqb_refl|]. destruct (Ascii.eqb_spec x c) as [->|_]; [exfalso; apply N; now left|].
  rewrite IH; [reflexivity|]. intro; apply N; now right.
Qed.
Lemma firstn_len : forall (a b : text), firstn (length a) (a ++ b) = a. Proof. intros a b. rewrite firstn_app, Nat.sub_diag, firstn_all. cbn. apply app_nil_r. Qed.
Lemma skipn_len : forall (a b : text) x, skipn (S (length a)) (a ++ x :: b) = b. Proof. induction a as [|y a IH]; intros b x; [reflexivity|]. cbn [length app]. exact (IH b x). Qed.
Lemma lr : lbrace <> rbrace. Proof. discriminate. Qed.

Lemma loop_simple : forall l tail acc n, simple l tail -> no_braces acc -> length l < n -> loop n (acc ++ render l tail) = Ok (acc ++ plain l tail).
Proof.
  induction l as [|[p c] q IH]; intros tail acc n [S T] A L; destruct n as [|n]; try (cbn in L; lia).
  - cbn [render plain loop]. rewrite index_none; [reflexivity|]. intro I. apply in_app_or in I. destruct I as [I|I]; [exact (proj1 A I)|exact (proj1 T I)].
  - destruct (S p c (or_introl eq_refl)) as [P C]. cbn [render plain loop].
    assert (AP : no_braces (acc ++ p)) by (split; intro I; apply in_app_or in I; destruct I as [I|I]; [exact (proj1 A I)|exact (proj1 P I)|exact (proj2 A I)|exact (proj2 P I)]).
    assert (E1 : acc ++ p ++ [lbrace] ++ c ++ [rbrace] ++ render q tail = (acc ++ p) ++ lbrace :: (c ++ [rbrace] ++ render q tail)) by (rewrite <- app_assoc; reflexivity).
    assert (E2 : acc ++ p ++ [lbrace] ++ c ++ [rbrace] ++ render q tail = ((acc ++ p) ++ lbrace :: c) ++ rbrace :: render q tail) by (rewrite <- !app_assoc; reflexivity).
    assert (I1 : index lbrace (acc ++ p ++ [lbrace] ++ c ++ [rbrace] ++ render q tail) = Some (length (acc ++ p))) by (rewrite E1; apply index_app; exact (proj1 AP)).
    assert (I2 : index rbrace (acc ++ p ++ [lbrace] ++ c ++ [rbrace] ++ render q tail) = Some (length ((acc ++ p) ++ lbrace :: c))).
    { rewrite E2. apply index_app. intro I. apply in_app_or in I. destruct I as [I|[I|I]]; [exact (proj2 AP I)|exact (lr I)|exact (proj2 C I)]. }
    rewrite I1, I2. rewrite E1 at 1. rewrite firstn_len. rewrite E2, skipn_len. rewrite (app_assoc acc p (plain q tail)).
    apply IH; [split; [intros a b I; apply S; now right|exact T]|exact AP|cbn in L; lia].
Qed.
Lemma strip_app : forall a b, strip (a ++ b) = strip a ++ strip b. Proof. intros a b. unfold strip. apply filter_app. Qed.
Lemma strip_render : forall l tail, strip (render l tail) = render (map (fun x => (strip (fst x), strip (snd x))) l) (strip tail).
Proof. induction l as [|[p c] q IH]; intro tail; [reflexivity|]. cbn [render map fst snd]. rewrite !strip_app, IH. reflexivity. Qed.
Lemma strip_plain : forall l tail, plain (map (fun x => (strip (fst x), strip (snd x))) l) (strip tail) = strip (plain l tail).
Proof. induction l as [|[p c] q IH]; intro tail; [reflexivity|]. cbn [plain map fst snd]. now rewrite strip_app, IH. Qed.
Lemma strip_braces : forall s, no_braces s -> no_braces (strip s).
Proof. intros s [A B]. split; intro I; apply filter_In in I; destruct I as [I _]; [exact (A I)|exact (B I)]. Qed.
Lemma split_none : forall s, ~ In comma s -> split s = [s].
Proof. induction s as [|x t IH]; intro N; [reflexivity|]. cbn [split]. destruct (Ascii.eqb_spec x comma) as [->|_]; [exfalso; apply N; now left|]. rewrite IH; [reflexivity|]. intro; apply N; now right. Qed.
Lemma split_app : forall s t, ~ In comma s -> split (s ++ comma :: t) = s :: split t.
Proof. induction s as [|x s IH]; intros t N; cbn [app split]; [now rewrite Ascii.eqb_refl|]. destruct (Ascii.eqb_spec x comma) as [->|_]; [exfalso; apply N; now left|]. rewrite IH; [reflexivity|]. intro; apply N; now right. Qed.

(* comments between braces, blanks and brackets are dropped wherever they are, commas in comments included, and the bounds
   are the texts on both sides of the only comma left *)
Theorem interval_read : forall l tail a b n, simple l tail -> bare (plain l tail) (a ++ [comma] ++ b) -> ~ In comma a -> ~ In comma b -> length l < n ->
  parse_interval n (render l tail) = Ok (a, b).
Proof.
  intros l tail a b n [S T] E A B L. apply bare_strip in E. unfold parse_interval. rewrite strip_render.
  pose proof (loop_simple (map (fun x => (strip (fst x), strip (snd x))) l) (strip tail) [] n) as H. cbn [app] in H. rewrite H.
  - rewrite strip_plain, E. cbn [app]. rewrite split_app by exact A. now rewrite split_none by exact B.
  - split; [|now apply strip_braces]. intros p c I. apply in_map_iff in I. destruct I as ([p' c'] & X & I). injection X as <- <-. destruct (S p' c' I). split; now apply strip_braces.
  - split; intros [].
  - rewrite map_length. exact L.
Qed.
(* without a comma, or with more than one, there is no answer *)
Theorem interval_refused : forall l tail n, simple l tail -> length l < n ->
  (~ In comma (plain l tail) -> parse_interval n (render l tail) = ValueError) /\
  (forall a b c, bare (plain l tail) (a ++ [comma] ++ b ++ [comma] ++ c) -> ~ In comma a -> ~ In comma b -> parse_interval n (render l tail) = ValueError).
Proof.
  intros l tail n [S T] L. unfold parse_interval. rewrite strip_render.
  pose proof (loop_simple (map (fun x => (strip (fst x), strip (snd x))) l) (strip tail) [] n) as H. cbn [app] in H. rewrite H.
  - rewrite strip_plain. split.
    + intro N. rewrite split_none; [reflexivity|]. intro I. apply filter_In in I. exact (N (proj1 I)).
    + intros a b c E A B. apply bare_strip in E. rewrite E. cbn [app]. rewrite split_app by exact A. rewrite split_app by exact B. destruct (split c) as [|x y] eqn:Q; [|reflexivity].
      exfalso. destruct c as [|x t]; [discriminate Q|]. cbn [split] in Q. destruct (Ascii.eqb x comma); [discriminate Q|]. destruct (split t); discriminate Q.
  - split; [|now apply strip_braces]. intros p c I. apply in_map_iff in I. destruct I as ([p' c'] & X & I). injection X as <- <-. destruct (S p' c' I). split; now apply strip_braces.
  - split; intros [].
  - rewrite map_length. exact L.
Qed.

(* ---- what is wrong ---- *)
(* a closing brace before the first opening one: the text is never shorter and the loop does not end *)
Lemma loop_endless : forall n p q r, no_braces p -> ~ In lbrace q -> loop n (p ++ [rbrace] ++ q ++ [lbrace] ++ r) = Endless.
Proof.
  induction n as [|n IH]; intros p q r P Q; [reflexivity|]. cbn [loop].
  assert (E : p ++ [rbrace] ++ q ++ [lbrace] ++ r = (p ++ rbrace :: q) ++ lbrace :: r) by (rewrite <- !app_assoc; reflexivity).
  assert (I1 : index lbrace (p ++ [rbrace] ++ q ++ [lbrace] ++ r) = Some (length (p ++ rbrace :: q))).
  { rewrite E. apply index_app. intro I. apply in_app_or in I. destruct I as [I|[I|I]]; [exact (proj1 P I)|exact (lr (eq_sym I))|exact (Q I)]. }
  assert (I2 : index rbrace (p ++ [rbrace] ++ q ++ [lbrace] ++ r) = Some (length p)) by (apply (index_app rbrace p (q ++ [lbrace] ++ r)); exact (proj2 P)).
  rewrite I1, I2. rewrite E at 1. rewrite firstn_len.
  assert (K : skipn (S (length p)) (p ++ [rbrace] ++ q ++ [lbrace] ++ r) = q ++ [lbrace] ++ r) by exact (skipn_len p (q ++ [lbrace] ++ r) rbrace). rewrite K.
  replace ((p ++ rbrace :: q) ++ q ++ [lbrace] ++ r) with (p ++ [rbrace] ++ (q ++ q) ++ [lbrace] ++ r) by (rewrite <- !app_assoc; reflexivity).
  apply IH; [exact P|]. intro I. apply in_app_or in I. tauto.
Qed.
(* a comment not closed raises an error *)
Lemma loop_unclosed : forall n s, In lbrace s -> ~ In rbrace s -> loop (S n) s = ValueError.
Proof.
  intros n s I N. cbn [loop]. rewrite (index_none rbrace s N). destruct (index lbrace s) eqn:E; [reflexivity|]. exfalso. clear N.
  induction s as [|x t IH]; [destruct I|]. cbn [index] in E. destruct (Ascii.eqb_spec x lbrace) as [->|X]; [discriminate E|]. destruct I as [->|I]; [congruence|]. destruct (index lbrace t); [discriminate E|]. now apply IH.
Qed.
(* the first closing brace is taken for the one of the first opening brace: the end of a comment around another is left in the text *)
Lemma loop_nested : forall n p a b c r, no_braces p -> no_braces a -> no_braces b -> no_braces c -> no_braces r ->
  loop (S (S n)) (p ++ [lbrace] ++ a ++ [lbrace] ++ b ++ [rbrace] ++ c ++ [rbrace] ++ r) = Ok (p ++ c ++ [rbrace] ++ r).
Proof.
  intros n p a b c r P A B C R. cbn [loop]. set (w := p ++ [lbrace] ++ a ++ [lbrace] ++ b ++ [rbrace] ++ c ++ [rbrace] ++ r).
  assert (E1 : w = p ++ lbrace :: (a ++ [lbrace] ++ b ++ [rbrace] ++ c ++ [rbrace] ++ r)) by reflexivity.
  assert (E2 : w = (p ++ lbrace :: a ++ lbrace :: b) ++ rbrace :: (c ++ [rbrace] ++ r)) by (unfold w; rewrite <- !app_assoc; cbn [app]; rewrite <- !app_assoc; reflexivity).
  assert (I1 : index lbrace w = Some (length p)) by (rewrite E1; apply index_app; exact (proj1 P)).
  assert (I2 : index rbrace w = Some (length (p ++ lbrace :: a ++ lbrace :: b))).
  { rewrite E2. apply index_app. intro I. apply in_app_or in I. destruct I as [I|[I|I]]; [exact (proj2 P I)|exact (lr I)|]. apply in_app_or in I. destruct I as [I|[I|I]]; [exact (proj2 A I)|exact (lr I)|exact (proj2 B I)]. }
  rewrite I1, I2. assert (F1 : firstn (length p) w = p) by (rewrite E1; apply firstn_len).
  assert (F2 : skipn (S (length (p ++ lbrace :: a ++ lbrace :: b))) w = c ++ [rbrace] ++ r) by (rewrite E2; apply skipn_len).
  rewrite F1, F2. rewrite index_none; [reflexivity|].
  intro I. repeat (apply in_app_or in I; destruct I as [I|I]); [exact (proj1 P I)|exact (proj1 C I)|destruct I as [I|[]]; exact (lr (eq_sym I))|exact (proj1 R I)].
Qed.

Lemma strip_in : forall c s, In c (strip s) -> In c s.
Proof. intros c s I. unfold strip in I. apply filter_In in I. tauto. Qed.
Lemma strip_keep : forall c s, blank c = false -> In c s -> In c (strip s).
Proof. intros c s B I. unfold strip. apply filter_In. now rewrite B. Qed.
Lemma strip_cat : forall a b, strip (a ++ b) = strip a ++ strip b.
Proof. intros a b. unfold strip. induction a as [|x a IH]; [reflexivity|]. cbn [app filter]. destruct (negb (blank x)); cbn [app]; now rewrite IH. Qed.
Theorem endless_refuted : forall n p q r, no_braces p -> ~ In lbrace q -> parse_interval n (p ++ [rbrace] ++ q ++ [lbrace] ++ r) = Endless.
Proof.
  intros n p q r P Q. unfold parse_interval. rewrite !strip_cat. change (strip [rbrace]) with [rbrace]. change (strip [lbrace]) with [lbrace].
  rewrite loop_endless; [reflexivity|now apply strip_braces|]. intro I. exact (Q (strip_in _ _ I)).
Qed.
Theorem unclosed_refused : forall n s, In lbrace s -> ~ In rbrace s -> parse_interval (S n) s = ValueError.
Proof.
  intros n s I N. unfold parse_interval. rewrite loop_unclosed; [reflexivity|now apply strip_keep|]. intro J. exact (N (strip_in _ _ J)).
Qed.
(* the bound read has the end of the comment in it *)
Theorem nested_refuted : forall n p a b c r p' c' r', no_braces p -> no_braces a -> no_braces b -> no_braces c -> no_braces r ->
  ~ In comma p -> ~ In comma c -> ~ In comma r -> bare p p' -> bare c c' -> bare r r' ->
  parse_interval (S (S n)) (p ++ [lbrace] ++ a ++ [lbrace] ++ b ++ [rbrace] ++ c ++ [rbrace] ++ [comma] ++ r) = Ok (p' ++ c' ++ [rbrace], r').
Proof.
  intros n p a b c r p' c' r' P A B C R NP NC NR P1 C1 R1. apply bare_strip in P1, C1, R1. subst p' c' r'. unfold parse_interval. rewrite !strip_cat.
  change (strip [rbrace]) with [rbrace]. change (strip [lbrace]) with [lbrace]. change (strip [comma]) with [comma].
  rewrite (loop_nested n (strip p) (strip a) (strip b) (strip c) ([comma] ++ strip r)); try now apply strip_braces.
  - replace (strip p ++ strip c ++ [rbrace] ++ [comma] ++ strip r) with ((strip p ++ strip c ++ [rbrace]) ++ comma :: strip r) by (rewrite <- !app_assoc; reflexivity).
    rewrite split_app; [rewrite split_none; [reflexivity|]|].
    + intro I. exact (NR (strip_in _ _ I)).
    + intro I. apply in_app_or in I. destruct I as [I|I]; [exact (NP (strip_in _ _ I))|]. apply in_app_or in I. destruct I as [I|[I|[]]]; [exact (NC (strip_in _ _ I))|discriminate I].
  - destruct (strip_braces r R) as [X Y]. split; intros [I|I]; try discriminate I; tauto.
Qed.

(* ---- the lines of an answer ---- *)
Definition occurs (pat s : text) : Prop := exists a b, s = a ++ pat ++ b.
(* a name: a text without its spaces *)
Inductive spaceless : text -> text -> Prop :=
| space_nil : spaceless [] []
| space_drop : forall s u, spaceless s u -> spaceless (" "%char :: s) u
| space_keep : forall c s u, c <> " "%char -> spaceless s u -> spaceless (c :: s) (c :: u).
Definition kw_in : text := [" "; "i"; "n"; " "]%char.
Definition kw_results : text := ["R"; "e"; "s"; "u"; "l"; "t"; "s"]%char.
(* what lines say: nothing, or that the expression a is in the interval i; a is before the first " in " *)
Inductive says (n : nat) : list text -> list (text * (text * text)) -> Prop :=
| says_nil : says n [] []
| says_nothing : forall l q ps, ~ occurs kw_in l -> says n q ps -> says n (l :: q) ps
| says_interval : forall a b v i q ps, (forall a' b', a ++ kw_in ++ b = a' ++ kw_in ++ b' -> length a <= length a') -> ~ occurs kw_in b ->
    spaceless a v -> parse_interval n b = Ok i -> says n q ps -> says n ((a ++ kw_in ++ b) :: q) ((v, i) :: ps).
(* the interval said last of v *)
Inductive said_last : list (text * (text * text)) -> text -> text * text -> Prop :=
| last_intro : forall l v i r, (forall j, ~ In (v, j) r) -> said_last (l ++ (v, i) :: r) v i.
(* the value of a key of the dictionary *)
Inductive bound : dict -> text -> text * text -> Prop :=
| bound_intro : forall l v i r, (forall j, ~ In (v, j) l) -> bound (l ++ (v, i) :: r) v i.

Lemma starts_iff : forall pat s, starts pat s = true <-> exists b, s = pat ++ b.
Proof.
  induction pat as [|x p IH]; intro s; cbn [starts]; [split; [intros _; now exists s|reflexivity]|]. destruct s as [|y q]; [split; [discriminate|intros [b E]; discriminate E]|].
  rewrite andb_true_iff, IH. split; [intros [E [b ->]]; apply Ascii.eqb_eq in E; subst y; now exists b|]. intros [b E]. injection E as -> ->. split; [apply Ascii.eqb_refl|now exists b].
Qed.
Lemma skipn_exact : forall (p b : text), skipn (length p) (p ++ b) = b. Proof. induction p as [|x p IH]; intro b; [reflexivity|exact (IH b)]. Qed.
Lemma cut_none : forall pat s, cut pat s = None <-> ~ occurs pat s.
Proof.
  intros pat. induction s as [|x t IH]; cbn [cut].
  - destruct (starts pat []) eqn:E.
    + split; [discriminate|]. intro N. exfalso. apply N. apply starts_iff in E. destruct E as [b E]. exists [], b. exact E.
    + split; [|reflexivity]. intros _ [a [b F]]. destruct a; [|discriminate F]. cbn [app] in F. assert (T : starts pat [] = true) by (apply starts_iff; now exists b). congruence.
  - destruct (starts pat (x :: t)) eqn:E.
    + split; [discriminate|]. intro N. exfalso. apply N. apply starts_iff in E. destruct E as [b E]. exists [], b. exact E.
    + destruct (cut pat t) as [[a b]|] eqn:C.
      * split; [discriminate|]. intro N. exfalso. assert (O : ~ occurs pat t) by (intros [c [e F]]; apply N; exists (x :: c), e; cbn [app]; now rewrite F). apply IH in O. discriminate O.
      * split; [|reflexivity]. intros _ [a [b F]]. destruct a as [|y a]; cbn [app] in F.
        -- assert (T : starts pat (x :: t) = true) by (apply starts_iff; now exists b). congruence.
        -- injection F as _ F. assert (O : ~ occurs pat t) by (apply IH; reflexivity). apply O. now exists a, b.
Qed.
Lemma cut_first : forall pat a b, (forall a' b', a ++ pat ++ b = a' ++ pat ++ b' -> length a <= length a') -> cut pat (a ++ pat ++ b) = Some (a, b).
Proof.
  intros pat. induction a as [|x a IH]; intros b F.
  - cbn [app]. assert (T : starts pat (pat ++ b) = true) by (apply starts_iff; now exists b). destruct (pat ++ b) as [|y t] eqn:E; cbn [cut]; rewrite T; rewrite <- E; now rewrite skipn_exact.
  - cbn [app cut]. destruct (starts pat (x :: a ++ pat ++ b)) eqn:E.
    + apply starts_iff in E. destruct E as [c E]. specialize (F [] c E). cbn in F. lia.
    + rewrite IH; [reflexivity|]. intros a' b' G. specialize (F (x :: a') b'). cbn [app length] in F. rewrite G in F. specialize (F eq_refl). lia.
Qed.
Lemma spaceless_unspace : forall s u, spaceless s u -> unspace s = u.
Proof. induction 1 as [|s u B IH|c s u N B IH]; [reflexivity|exact IH|]. unfold unspace in *. cbn [filter]. apply Ascii.eqb_neq in N. rewrite N. cbn [negb]. now rewrite IH. Qed.
Lemma strip_unspace : forall s, strip (unspace s) = strip s.
Proof.
  induction s as [|c s IH]; [reflexivity|]. unfold unspace, strip in *. cbn [filter]. destruct (Ascii.eqb c " ") eqn:E; cbn [negb].
  - assert (B : blank c = true) by (unfold blank; now rewrite E). rewrite B. exact IH.
  - cbn [filter]. destruct (negb (blank c)); now rewrite IH.
Qed.
Lemma parse_unspace : forall n s, parse_interval n (unspace s) = parse_interval n s. Proof. intros n s. unfold parse_interval. now rewrite strip_unspace. Qed.

Lemma read_says : forall n ls ps, says n ls ps -> forall d rest, read_lines n (ls ++ rest) d = read_lines n rest (rev ps ++ d).
Proof.
  induction 1 as [|l q ps N S IH|a b v i q ps F N V P S IH]; intros d rest; [reflexivity| |]; cbn [app read_lines].
  - apply cut_none in N. change kw_in with in_word in N. rewrite N. apply IH.
  - change kw_in with in_word in *. rewrite (cut_first in_word a b F). apply cut_none in N. rewrite N. rewrite parse_unspace, P, (spaceless_unspace _ _ V).
    rewrite IH. cbn [rev]. now rewrite <- app_assoc.
Qed.
Lemma extract_lines : forall n pre h ls, (forall l, In l pre -> ~ occurs kw_results l) -> occurs kw_results h -> extract n (pre ++ h :: ls) = read_lines n ls [].
Proof.
  intros n pre h ls. change kw_results with results_word. induction pre as [|l q IH]; intros N O; cbn [app extract].
  - destruct (cut results_word h) eqn:C; [reflexivity|]. apply cut_none in C. now destruct C.
  - assert (C : cut results_word l = None) by (apply cut_none, N; now left). rewrite C. apply IH; [intros x I; apply N; now right|exact O].
Qed.
(* after the first line with "Results", the value of each expression is the interval said last of it, and there are no others *)
Theorem answer_read : forall n pre h ls ps, (forall l, In l pre -> ~ occurs kw_results l) -> occurs kw_results h -> says n ls ps ->
  exists d, extract n (pre ++ h :: ls) = Ok d /\ forall v i, bound d v i <-> said_last ps v i.
Proof.
  intros n pre h ls ps N O S. exists (rev ps). split.
  - rewrite (extract_lines n pre h ls N O). pose proof (read_says n ls ps S [] []) as R. rewrite !app_nil_r in R. rewrite R. reflexivity.
  - intros v i. split; intro B.
    + remember (rev ps) as d eqn:D. destruct B as [l v i r L]. assert (E : ps = rev r ++ (v, i) :: rev l).
      { rewrite <- (rev_involutive ps), <- D, rev_app_distr. cbn [rev]. now rewrite <- app_assoc. }
      rewrite E. constructor. intros j I. apply in_rev in I. exact (L j I).
    + destruct B as [l v i r L]. rewrite rev_app_distr. cbn [rev]. rewrite <- app_assoc. cbn [app]. constructor. intros j I. apply in_rev in I. exact (L j I).
Qed.
Theorem answer_refused : forall n answer, (forall l, In l answer -> ~ occurs kw_results l) -> extract n answer = ValueError.
Proof.
  intros n. change kw_results with results_word. induction answer as [|l q IH]; intro N; [reflexivity|]. cbn [extract].
  assert (C : cut results_word l = None) by (apply cut_none, N; now left). rewrite C. apply IH. intros x I. apply N. now right.
Qed.
(* one line that is not read, and all that the others say is lost *)
Theorem answer_lost_refuted : forall n pre h ls ps a b rest, (forall l, In l pre -> ~ occurs kw_results l) -> occurs kw_results h -> says n ls ps ->
  (forall a' b', a ++ kw_in ++ b = a' ++ kw_in ++ b' -> length a <= length a') -> ~ occurs kw_in b -> parse_interval n b = ValueError ->
  extract n (pre ++ h :: ls ++ (a ++ kw_in ++ b) :: rest) = ValueError.
Proof.
  intros n pre h ls ps a b rest N O S F M P. rewrite (extract_lines n pre h _ N O), (read_says n ls ps S). cbn [read_lines]. change kw_in with in_word in *.
  rewrite (cut_first in_word a b F). apply cut_none in M. now rewrite M, parse_unspace, P.
Qed.

(* ---- examples ---- *)
Definition t (s : String.string) : text := String.list_ascii_of_string s.
Import String. Local Open Scope string_scope.
Example gappa_line : parse_interval 3 (t "[-1b-3 {-0.125, -2^(-3)}, 1b-3 {0.125, 2^(-3)}]") = Ok (t "-1b-3", t "1b-3").
Proof. reflexivity. Qed.
Example gappa_shape : render [(t "[-1b-3 ", t "-0.125, -2^(-3)"); (t ", 1b-3 ", t "0.125, 2^(-3)")] (t "]") = t "[-1b-3 {-0.125, -2^(-3)}, 1b-3 {0.125, 2^(-3)}]".
Proof. reflexivity. Qed.
Example gappa_bare : bare (t "[-1b-3 , 1b-3 ]") (t "-1b-3,1b-3").
Proof. unfold t. cbn. repeat (first [apply bare_nil|apply bare_drop; [now auto|]|apply bare_keep; [repeat split; discriminate|]]). Qed.
Example one_bound : parse_interval 3 (t "[0]") = ValueError.
Proof. reflexivity. Qed.
Example backwards : forall n, parse_interval n (t "0}1{2") = Endless.
Proof. intro n. apply (endless_refuted n (t "0") (t "1") (t "2")); [split|]; cbn; intuition discriminate. Qed.
Example nested : parse_interval 5 (t "[1{a{b}c},2]") = Ok (t "1c}", t "2").
Proof. reflexivity. Qed.
Example unclosed : parse_interval 5 (t "[1{a,2]") = ValueError.
Proof. reflexivity. Qed.
Definition gappa_answer : list text := [t "Warning: no path was found"; t "Results:"; t "  x - y in [-1b-3 {-0.125}, 1b-3 {0.125}]"; t ""; t "  z in [0, 1]"; t "  z in [0, 2]"].
Example answer_example : extract 9 gappa_answer = Ok [(t "z", (t "0", t "2")); (t "z", (t "0", t "1")); (t "x-y", (t "-1b-3", t "1b-3"))].
Proof. reflexivity. Qed.
Example says_example : says 9 [t "z in [0, 1]"; t ""] [(t "z", (t "0", t "1"))].
Proof.
  change (t "z in [0, 1]") with (t "z" ++ kw_in ++ t "[0, 1]")%list. apply says_interval.
  - intros a' b' E. destruct a' as [|x a']; [discriminate E|cbn; lia].
  - change kw_in with in_word. apply cut_none. reflexivity.
  - constructor; [discriminate|constructor].
  - reflexivity.
  - constructor; [|constructor]. change kw_in with in_word. apply cut_none. reflexivity.
Qed.
Example lost_example : extract 9 [t "Results:"; t "z in [0, 1]"; t "y in [0]"] = ValueError.
Proof. reflexivity. Qed.
Example no_answer : extract 9 [t "Error: syntax"] = ValueError.
Proof. reflexivity. Qed.

Print Assumptions interval_read.
Print Assumptions interval_refused.
Print Assumptions endless_refuted.
Print Assumptions unclosed_refused.
Print Assumptions nested_refuted.
Print Assumptions answer_read.
Print Assumptions answer_refused.
Print Assumptions answer_lost_refuted.
