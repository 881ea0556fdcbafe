(* What summaries of tests and their comparison say, and what is wrong. *)
From Coq Require Import Ascii String List Bool ZArith QArith Qabs Lia Lqa.
From Verif Require Import TsumModel TsumSpec TsumProofs.
Import ListNotations.
Open Scope nat_scope.

Definition the_header : text := lit "# format_version=1".
Lemma dump_lines : forall c m, dump c m = concat (map (fun w => w ++ [nl]) (the_header :: map (fun line => lit "# " ++ line) (split_on nl c) ++ map (fun e => join sp (fst e :: snd e)) m)).
Proof.
  intros c m. unfold dump. cbn [map concat]. rewrite map_app, concat_app, !map_map. change ((the_header ++ [nl]) ++ ?x) with (lit "# format_version=" ++ lit "1" ++ [nl] ++ x). do 3 f_equal.
Qed.
Lemma import_lines : forall l m, (forall w, In w l -> ~ In nl w) -> import_from_file (concat (map (fun w => w ++ [nl]) (the_header :: map (fun line => lit "# " ++ line) m ++ l))) =
  (if forallb (fun w => negb (has nl w)) m then Ok (read_tests l []) else import_from_file (concat (map (fun w => w ++ [nl]) (the_header :: map (fun line => lit "# " ++ line) m ++ l)))).
Proof.
  intros l m H. destruct (forallb (fun w => negb (has nl w)) m) eqn:F; [|reflexivity]. unfold import_from_file at 1. rewrite readlines_concat.
  - change (Ok (read_tests (map (fun line => lit "# " ++ line) m ++ l) []) = Ok (read_tests l [])). f_equal. apply read_comments. intros w Hw. apply in_map_iff in Hw. destruct Hw as (v & <- & _). reflexivity.
  - intros w [<-|Hw].
    + intro X. cbn in X. repeat (destruct X as [X|X]; [discriminate X|]). exact X.
    + apply in_app_or in Hw. destruct Hw as [Hw|Hw]; [|apply H; exact Hw]. apply in_map_iff in Hw. destruct Hw as (v & <- & Hv). rewrite forallb_forall in F. specialize (F v Hv).
      intro X. cbn in X. destruct X as [X|[X|X]]; [discriminate X|discriminate X|]. apply negb_true_iff in F. unfold has in F. assert (existsb (Ascii.eqb nl) v = true) by (apply existsb_exists; exists nl; split; [exact X|apply Ascii.eqb_refl]). congruence.
Qed.
Lemma import_dump : forall c m, (forall x f, In (x, f) m -> ~ In nl x /\ forall w, In w f -> ~ In nl w) -> import_from_file (dump c m) = Ok (read_tests (map (fun e => join sp (fst e :: snd e)) m) []).
Proof.
  intros c m H. rewrite dump_lines, import_lines.
  - replace (forallb (fun w => negb (has nl w)) (split_on nl c)) with true; [reflexivity|]. symmetry. apply forallb_forall. intros w Hw. apply negb_true_iff. unfold has.
    destruct (existsb (Ascii.eqb nl) w) eqn:E; [|reflexivity]. apply existsb_exists in E. destruct E as (z & Hz & E). apply Ascii.eqb_eq in E. subst z. now apply (split_no nl c w Hw) in Hz.
  - intros w Hw. apply in_map_iff in Hw. destruct Hw as ([x f] & <- & Hx). cbn [fst snd]. intro X. destruct (H x f Hx) as [H1 H2]. apply in_join in X. destruct X as [X|(v & [<-|Hv] & X)]; [discriminate X|exact (H1 X)|exact (H2 v Hv X)].
Qed.

(* a summary written then read is the same, whatever the comment *)
Theorem summary_roundtrip : forall comment m, writable m -> keys_once m -> import_from_file (dump comment m) = Ok m.
Proof.
  intros c m W ND. rewrite import_dump.
  - f_equal. apply read_back with (acc := []); assumption.
  - intros x f Hx. destruct (W x f Hx) as (A & _ & B). split; [apply A|]. intros w Hw. apply (B w Hw).
Qed.

(* what is said of each test *)
Theorem compare_classes : forall float ref res l, keys_once ref -> compare float ref res = Ok l -> forall x,
  (In (x, Downgraded) l <-> exists rf sf, get ref x = Some rf /\ get res x = Some sf /\ passing rf /\ ~ passing sf) /\
  (In (x, Upgraded) l <-> exists rf sf, get ref x = Some rf /\ get res x = Some sf /\ ~ passing rf /\ passing sf) /\
  (forall p, In (x, Decreased p) l <-> exists rf sf a b, get ref x = Some rf /\ get res x = Some sf /\ measured float rf a /\ measured float sf b /\ lt a b = true /\ p = percent a b) /\
  (forall p, In (x, Improved p) l <-> exists rf sf a b, get ref x = Some rf /\ get res x = Some sf /\ measured float rf a /\ measured float sf b /\ lt a b = false /\ p = percent a b).
Proof.
  intros float ref res l ND E x. unfold compare in E. pose proof (proj1 (loop_ok float ref res) (ex_intro _ l E)) as OK.
  assert (IN : forall c, In (x, c) l <-> exists rf, get ref x = Some rf /\ one float res x rf = Ok (Some c)).
  { intro c. rewrite (loop_in float ref res l E x c). split; intros (rf & H & O); exists rf; (split; [|exact O]); [apply in_get; assumption|apply get_in; exact H]. }
  assert (DEF : forall rf sf, get ref x = Some rf -> get res x = Some sf -> exists o, compare_one float rf sf = Ok o).
  { intros rf sf H1 H2. destruct (OK x rf (get_in _ _ _ H1)) as [o O]. unfold one in O. rewrite H2 in O. exists o. exact O. }
  split; [|split; [|split]].
  - rewrite IN. split.
    + intros (rf & H & O). unfold one in O. destruct (get res x) as [sf|] eqn:G; [|discriminate O]. apply one_down in O. destruct O as (A & B & C). exists rf, sf. auto.
    + intros (rf & sf & H1 & H2 & A & B). exists rf. split; [exact H1|]. unfold one. rewrite H2. apply one_down. split; [exact A|]. split; [|exact B]. intros ->. destruct (DEF rf [] H1 H2) as [o O]. destruct rf; discriminate O.
  - rewrite IN. split.
    + intros (rf & H & O). unfold one in O. destruct (get res x) as [sf|] eqn:G; [|discriminate O]. apply one_up in O. destruct O as (A & B & C). exists rf, sf. auto.
    + intros (rf & sf & H1 & H2 & A & B). exists rf. split; [exact H1|]. unfold one. rewrite H2. apply one_up. split; [|split; [exact A|exact B]]. intros ->. destruct (DEF [] sf H1 H2) as [o O]. discriminate O.
  - intro p. rewrite IN. split.
    + intros (rf & H & O). unfold one in O. destruct (get res x) as [sf|] eqn:G; [|discriminate O]. destruct (one_perf_inv float rf sf _ O) as (a & b & MA & MB & ZA & C); [exists p; now right|].
      unfold perf_comp in C. destruct (lt a b) eqn:L; [|discriminate C]. injection C as ->. exists rf, sf, a, b. auto 10.
    + intros (rf & sf & a & b & H1 & H2 & MA & MB & L & ->). exists rf. split; [exact H1|]. unfold one. rewrite H2. destruct (DEF rf sf H1 H2) as [o O]. rewrite (one_perf float rf sf a b MA MB) in *. destruct (is_zero a); [discriminate O|]. unfold perf_comp. now rewrite L.
  - intro p. rewrite IN. split.
    + intros (rf & H & O). unfold one in O. destruct (get res x) as [sf|] eqn:G; [|discriminate O]. destruct (one_perf_inv float rf sf _ O) as (a & b & MA & MB & ZA & C); [exists p; now left|].
      unfold perf_comp in C. destruct (lt a b) eqn:L; [discriminate C|]. injection C as ->. exists rf, sf, a, b. auto 10.
    + intros (rf & sf & a & b & H1 & H2 & MA & MB & L & ->). exists rf. split; [exact H1|]. unfold one. rewrite H2. destruct (DEF rf sf H1 H2) as [o O]. rewrite (one_perf float rf sf a b MA MB) in *. destruct (is_zero a); [discriminate O|]. unfold perf_comp. now rewrite L.
Qed.

(* tests of the reference missing in the result are said so; those failing in both are left out; all others are there *)
Theorem compare_covers : forall float ref res l, keys_once ref -> compare float ref res = Ok l -> forall x rf, get ref x = Some rf ->
  (get res x = None -> In (x, NotFound) l) /\ ((exists c, In (x, c) l) <-> ~ (exists sf, get res x = Some sf /\ ~ passing rf /\ ~ passing sf)).
Proof.
  intros float ref res l ND E x rf H. unfold compare in E. pose proof (proj1 (loop_ok float ref res) (ex_intro _ l E) x rf (get_in _ _ _ H)) as [o O].
  assert (IN : forall c, In (x, c) l <-> o = Some c).
  { intro c. rewrite (loop_in float ref res l E x c). split.
    - intros (f & Hf & Of). apply in_get in Hf; [|exact ND]. rewrite H in Hf. injection Hf as <-. rewrite O in Of. now injection Of.
    - intros ->. exists rf. split; [apply get_in; exact H|exact O]. }
  unfold one in O. split.
  - intro G. rewrite G in O. apply IN. now injection O as <-.
  - destruct (get res x) as [sf|] eqn:G.
    + split.
      * intros [c C] (sf' & S1 & P1 & P2). injection S1 as <-. apply IN in C. subst o. assert (X : compare_one float rf sf = Ok None); [|congruence]. apply one_none. split; [intros ->; discriminate O|]. split; [intros ->; destruct rf; discriminate O|]. split; assumption.
      * intro NX. destruct o as [c|]; [exists c; now apply IN|]. exfalso. apply NX. exists sf. apply one_none in O. split; [reflexivity|]. split; apply O.
    + split; [intros _ (sf & S1 & _); discriminate S1|]. intros _. exists NotFound. apply IN. now injection O as <-.
Qed.

(* exchanging reference and result *)
Theorem compare_swapped : forall float a b l m, keys_once a -> keys_once b -> compare float a b = Ok l -> compare float b a = Ok m -> forall x,
  (In (x, Downgraded) l <-> In (x, Upgraded) m) /\ (forall p, In (x, Decreased p) l -> exists q, In (x, Improved q) m).
Proof.
  intros float a b l m NA NB EL EM x. destruct (compare_classes float a b l NA EL x) as (D1 & _ & P1 & _). destruct (compare_classes float b a m NB EM x) as (_ & U2 & _ & I2). split.
  - rewrite D1, U2. split; intros (f & g & H1 & H2 & H3 & H4); exists g, f; auto.
  - intros p H. apply P1 in H. destruct H as (rf & sf & u & v & H1 & H2 & H3 & H4 & L & _). exists (percent v u). apply I2. exists sf, rf, v, u. split; [exact H2|]. split; [exact H1|]. split; [exact H4|]. split; [exact H3|]. split; [|reflexivity].
    destruct u as [u| | |], v as [v| | |]; try reflexivity; try discriminate L. cbn [lt] in *. apply negb_true_iff in L. apply negb_false_iff. apply Qle_bool_iff.
    destruct (Qlt_le_dec u v) as [X|X]; [apply Qlt_le_weak; exact X|]. apply Qle_bool_iff in X. congruence.
Qed.

(* summaries of test runs: each title once, complete; the last run of a title counts *)
Theorem summary_complete : forall threshold l, keys_once (summarize threshold l []) /\ complete (summarize threshold l []).
Proof.
  intros thr l. assert (G : forall m, keys_once m -> complete m -> keys_once (summarize thr l m) /\ complete (summarize thr l m)).
  { induction l as [|o l IH]; intros m K C; [split; assumption|]. cbn [summarize]. apply IH; [apply put_keys; exact K|]. intros x f H. rewrite get_put in H. destruct (text_eqb (title o) x); [|exact (C x f H)].
    injection H as <-. unfold fields_of. destruct (failed o) as [[| | | |msg]|]; (split; [discriminate|]); intro X; apply passing_head in X; apply ok_iff in X.
    1,2,3,4,5: discriminate X. rewrite X. eexists. eexists. reflexivity. }
  apply G; [constructor|]. intros x f H. discriminate H.
Qed.
Theorem summary_status : forall threshold l1 o l2, (forall p, In p l2 -> title p <> title o) ->
  exists f, get (summarize threshold (l1 ++ o :: l2) []) (title o) = Some f /\
  (passing f <-> failed o = None /\ (max_error o = None \/ exists q t, max_error o = Some (Fin q, t) /\ (0 <= q)%Q /\ (q <= threshold)%Q)).
Proof.
  intros thr l1 o l2 H. exists (fields_of thr o). split.
  - assert (A : forall l m, (forall p, In p l -> title p <> title o) -> get (summarize thr l m) (title o) = get m (title o)).
    { induction l as [|p l IH]; intros m Hp; [reflexivity|]. cbn [summarize]. rewrite IH by (intros q Hq; apply Hp; now right). rewrite get_put, text_eqb_neq; [reflexivity|]. apply Hp. now left. }
    assert (B : forall l m, summarize thr (l ++ o :: l2) m = summarize thr l2 (put (summarize thr l m) (title o) (fields_of thr o))) by (induction l as [|p l IH]; intro m; [reflexivity|cbn [app summarize]; apply IH]).
    rewrite B, A by exact H. rewrite get_put, text_eqb_refl. reflexivity.
  - unfold fields_of. destruct (failed o) as [[| | | |msg]|].
    1,2,3,4: split; [intros [t X]; discriminate X|intros [X _]; discriminate X].
    1: split; [intros [t X]; injection X as X _; discriminate X|intros [X _]; discriminate X].
    rewrite passing_head. destruct (max_error o) as [[v t]|]; [|split; [intros _; split; [reflexivity|now left]|reflexivity]].
    destruct v as [q| | |]; cbn [bad_error]; try (split; [discriminate|intros [_ [X|(z & w & X & _)]]; discriminate X]).
    destruct (Qle_bool (Qabs q) thr) eqn:E1, (Qle_bool 0 q) eqn:E2; cbn [negb orb].
    + apply Qle_bool_iff in E1, E2. rewrite Qabs_pos in E1 by exact E2. split; [intros _; split; [reflexivity|right; exists q, t; auto]|reflexivity].
    + split; [discriminate|]. intros [_ [X|(z & w & X & Y & _)]]; [discriminate X|]. injection X as <- _. apply Qle_bool_iff in Y. congruence.
    + split; [discriminate|]. intros [_ [X|(z & w & X & Y1 & Y2)]]; [discriminate X|]. injection X as <- _. rewrite <- (Qabs_pos q Y1) in Y2. apply Qle_bool_iff in Y2. congruence.
    + split; [discriminate|]. intros [_ [X|(z & w & X & Y & _)]]; [discriminate X|]. injection X as <- _. apply Qle_bool_iff in Y. congruence.
Qed.

(* comparing complete summaries fails exactly when a test passing in both, with two
   measures, has the measure zero in the reference *)
Theorem compare_fails_iff : forall float ref res, keys_once ref -> complete ref -> complete res ->
  ((exists e, compare float ref res = Err e) <-> exists x rf sf a b, get ref x = Some rf /\ get res x = Some sf /\ measured float rf a /\ measured float sf b /\ is_zero a = true) /\
  (forall e, compare float ref res = Err e -> e = ZeroDivisionError).
Proof.
  intros float ref res ND CR CS.
  assert (X : forall e, compare float ref res = Err e -> e = ZeroDivisionError /\ exists x rf sf a b, get ref x = Some rf /\ get res x = Some sf /\ measured float rf a /\ measured float sf b /\ is_zero a = true).
  { intros e E. destruct (loop_err float ref res e E) as (x & rf & H & O). apply in_get in H; [|exact ND]. unfold one in O. destruct (get res x) as [sf|] eqn:G; [|discriminate O].
    destruct (CR x rf H) as [R1 R2]. destruct (CS x sf G) as [S1 S2]. destruct (one_err float rf sf e R1 S1 R2 S2 O) as (EZ & a & b & MA & MB & ZA). split; [exact EZ|]. exists x, rf, sf, a, b. auto 10. }
  split; [|intros e E; apply (X e E)]. split; [intros [e E]; apply (X e E)|]. intros (x & rf & sf & a & b & H1 & H2 & MA & MB & ZA). unfold compare. destruct (compare_loop float ref res) as [l|e] eqn:E; [|exists e; reflexivity].
  exfalso. destruct (proj1 (loop_ok float ref res) (ex_intro _ l E) x rf (get_in _ _ _ H1)) as [o O]. unfold one in O. rewrite H2, (one_perf float rf sf a b MA MB), ZA in O. discriminate O.
Qed.

(* report: each entry is in one category or uncategorized; thresholds are percentages of the reference *)
Theorem report_counts : forall i d l, length (listed i d None l) + length (listed i d (Some 0) l) + length (listed i d (Some 1) l) + length (listed i d (Some 2) l) + length (listed i d (Some 3) l) = length l.
Proof. exact partition_count. Qed.
Theorem report_thresholds : forall i d a b, (0 <= i)%Q -> (0 <= d)%Q -> (0 < a)%Q ->
  (category i d (perf_comp (Fin a) (Fin b)) = Some 1 <-> (b < a * (1 - i / 100))%Q) /\
  (category i d (perf_comp (Fin a) (Fin b)) = Some 3 <-> (a * (1 + d / 100) < b)%Q).
Proof.
  intros i d a b Hi Hd Ha. unfold perf_comp. cbn [lt percent].
  assert (EQ : (a * ((1 - b / a) * 100) == (a - b) * 100)%Q) by (field; lra).
  set (p := ((1 - b / a) * 100)%Q) in *. clearbody p.
  assert (DI : (a * (1 - i / 100) == a - a * i / 100)%Q) by field. assert (DD : (a * (1 + d / 100) == a + a * d / 100)%Q) by field. rewrite DI, DD.
  assert (AI : (0 <= a * i)%Q) by (apply Qmult_le_0_compat; lra). assert (AD : (0 <= a * d)%Q) by (apply Qmult_le_0_compat; lra).
  assert (QI : (a * i / 100 == (a * i) * (1 # 100))%Q) by field. assert (QD : (a * d / 100 == (a * d) * (1 # 100))%Q) by field. rewrite QI, QD.
  destruct (Qle_bool b a) eqn:E; cbn [negb category].
  - apply Qle_bool_iff in E. assert (P0 : (0 <= p)%Q) by (apply (Qmult_lt_0_le_reg_r 0 p a Ha); rewrite (Qmult_comm p a), EQ; lra).
    cbn [above]. split.
    + destruct (Qle_bool (Qabs p) i) eqn:B; cbn [negb].
      * split; [discriminate|]. intro X. apply Qle_bool_iff in B. rewrite Qabs_pos in B by exact P0. exfalso. assert (Y : (a * p <= a * i)%Q) by (rewrite !(Qmult_comm a); apply Qmult_le_compat_r; lra). rewrite EQ in Y. lra.
      * split; [intros _|reflexivity]. destruct (Qlt_le_dec i p) as [Y|Y]; [|rewrite <- (Qabs_pos p P0) in Y; apply Qle_bool_iff in Y; congruence].
        assert (Y2 : (a * i < a * p)%Q) by (rewrite !(Qmult_comm a); apply Qmult_lt_compat_r; assumption). rewrite EQ in Y2. lra.
    + split; [destruct (negb (Qle_bool (Qabs p) i)); discriminate|]. intro X. exfalso. lra.
  - assert (AB : (a < b)%Q) by (destruct (Qlt_le_dec a b) as [X|X]; [exact X|apply Qle_bool_iff in X; congruence]).
    assert (P0 : (p <= 0)%Q) by (apply (Qmult_lt_0_le_reg_r p 0 a Ha); rewrite (Qmult_comm p a), EQ; lra).
    cbn [above]. split.
    + split; [destruct (negb (Qle_bool (Qabs p) d)); discriminate|]. intro X. exfalso. lra.
    + destruct (Qle_bool (Qabs p) d) eqn:B; cbn [negb].
      * split; [discriminate|]. intro X. apply Qle_bool_iff in B. rewrite Qabs_neg in B by exact P0. exfalso. assert (Y : (a * - p <= a * d)%Q) by (rewrite !(Qmult_comm a); apply Qmult_le_compat_r; lra).
        assert (Y1 : (a * - p == - (a * p))%Q) by ring. rewrite Y1, EQ in Y. lra.
      * split; [intros _|reflexivity]. destruct (Qlt_le_dec d (- p)) as [Y|Y]; [|rewrite <- (Qabs_neg p P0) in Y; apply Qle_bool_iff in Y; congruence].
        assert (Y2 : (a * d < a * - p)%Q) by (rewrite !(Qmult_comm a); apply Qmult_lt_compat_r; assumption). assert (Y1 : (a * - p == - (a * p))%Q) by ring. rewrite Y1, EQ in Y2. lra.
Qed.

(* ---- what is wrong ---- *)
(* a test whose measure in the reference reads as zero (0.004 is written 0.00): no comparison at all, whatever the other tests *)
Theorem zero_reference_refuted : forall float z v e g b pre x post res, float z = Some (Fin 0) -> float v = Some b -> get res x = Some (lit "OK" :: v :: g) ->
  forall l, compare float (pre ++ (x, lit "OK" :: z :: e) :: post) res <> Ok l.
Proof.
  intros float z v e g b pre x post res FZ FV G l E. destruct (proj1 (loop_ok float _ res) (ex_intro _ l E) x (lit "OK" :: z :: e)) as [o O]; [apply in_or_app; right; now left|].
  unfold one in O. rewrite G in O. rewrite (one_perf float _ _ (Fin 0) b) in O; [discriminate O|exists z, e; split; [reflexivity|exact FZ]|exists v, g; split; [reflexivity|exact FV]].
Qed.
(* a summary compared with itself: every measured test has improved *)
Theorem same_improved_refuted : forall float m l x f a, keys_once m -> compare float m m = Ok l -> get m x = Some f -> measured float f a -> In (x, Improved (percent a a)) l.
Proof.
  intros float m l x f a ND E G M. destruct (compare_classes float m m l ND E x) as (_ & _ & _ & I). apply I. exists f, f, a, a. split; [exact G|]. split; [exact G|]. split; [exact M|]. split; [exact M|]. split; [|reflexivity].
  destruct a as [q| | |]; try reflexivity. cbn [lt]. apply negb_false_iff. apply Qle_bool_iff. apply Qle_refl.
Qed.
(* a measure that is not a number is an improvement *)
Theorem nan_improved_refuted : forall float z v e g a x, float z = Some a -> is_zero a = false -> float v = Some NaN ->
  compare float [(x, lit "OK" :: z :: e)] [(x, lit "OK" :: v :: g)] = Ok [(x, Improved NaN)].
Proof.
  intros float z v e g a x FZ ZA FV. unfold compare. cbn [compare_loop get]. rewrite text_eqb_refl. rewrite (one_perf float _ _ a NaN); [|exists z, e; split; [reflexivity|exact FZ]|exists v, g; split; [reflexivity|exact FV]].
  rewrite ZA. destruct a; reflexivity.
Qed.
(* tests that are not in the reference are not reported, even if they fail *)
Theorem new_tests_refuted : forall float ref res l x, compare float ref res = Ok l -> (forall f, ~ In (x, f) ref) -> forall c, ~ In (x, c) l.
Proof. intros float ref res l x E H c X. apply (loop_in float ref res l E) in X. destruct X as (f & F & _). exact (H f F). Qed.
(* tests that have disappeared are in no category *)
Theorem lost_tests_refuted : forall i d l x k, ~ In (x, NotFound) (listed i d (Some k) l).
Proof. intros i d l x k H. unfold listed in H. apply filter_In in H. destruct H as [_ H]. discriminate H. Qed.

(* a title with a space: the test read back has another title, and is not found *)
Theorem title_space_refuted : forall comment float a b f, word a -> (forall t, a <> hash :: t) -> ~ In nl b -> (forall w, In w f -> word w) ->
  import_from_file (dump comment [(a ++ sp :: b, f)]) = Ok [(a, split_on sp b ++ f)] /\
  compare float [(a, split_on sp b ++ f)] [(a ++ sp :: b, f)] = Ok [(a, NotFound)].
Proof.
  intros c float a b f [A1 A2] NH NB WF. split.
  - rewrite import_dump.
    + change (map (fun e : text * list text => join sp (fst e :: snd e)) [(a ++ sp :: b, f)]) with [join sp ((a ++ sp :: b) :: f)].
      assert (J : join sp ((a ++ sp :: b) :: f) = join sp (a :: split_on sp b ++ f)).
      { assert (JS : forall s, join sp (split_on sp s) = s).
        { induction s as [|y s IH]; [reflexivity|]. cbn [split_on]. destruct (Ascii.eqb_spec y sp) as [->|N].
          - destruct (split_on sp s) as [|w r] eqn:E; [now apply split_nonempty in E|]. change (join sp ([] :: w :: r)) with (sp :: join sp (w :: r)). now rewrite IH.
          - destruct (split_on sp s) as [|w r] eqn:E; [now apply split_nonempty in E|]. destruct r as [|v r]; [cbn [join] in *; now rewrite IH|]. change (join sp ((y :: w) :: v :: r)) with (y :: (w ++ sp :: join sp (v :: r))). change (join sp (w :: v :: r)) with (w ++ sp :: join sp (v :: r)) in IH. now rewrite IH. }
        assert (JA : forall l g, l <> [] -> join sp (l ++ g) = join sp (join sp l :: g)).
        { induction l as [|w l IH]; intros g N; [contradiction|]. destruct l as [|v l]; [reflexivity|]. change (join sp ((w :: v :: l) ++ g)) with (w ++ sp :: join sp ((v :: l) ++ g)). rewrite IH by discriminate.
          change (join sp (w :: v :: l)) with (w ++ sp :: join sp (v :: l)). destruct g as [|u g]; [reflexivity|]. change (join sp (join sp (v :: l) :: u :: g)) with (join sp (v :: l) ++ sp :: join sp (u :: g)).
          change (join sp ((w ++ sp :: join sp (v :: l)) :: u :: g)) with ((w ++ sp :: join sp (v :: l)) ++ sp :: join sp (u :: g)). rewrite <- app_assoc. reflexivity. }
        change (a :: split_on sp b ++ f) with ((a :: split_on sp b) ++ f). rewrite JA by discriminate. f_equal. f_equal.
        destruct (split_on sp b) as [|w r] eqn:E; [now apply split_nonempty in E|]. change (join sp (a :: w :: r)) with (a ++ sp :: join sp (w :: r)). rewrite <- E, JS. reflexivity. }
      rewrite J. cbn [read_tests]. rewrite starts_join by exact NH. rewrite split_join; [reflexivity|discriminate|]. intros w [<-|Hw]; [exact A1|]. apply in_app_or in Hw. destruct Hw as [Hw|Hw]; [exact (split_no _ _ _ Hw)|apply (WF w Hw)].
    + intros x g [X|[]]. injection X as <- <-. split; [|intros w Hw; apply (WF w Hw)]. intro X. apply in_app_or in X. destruct X as [X|[X|X]]; [exact (A2 X)|discriminate X|exact (NB X)].
  - unfold compare. cbn [compare_loop get]. rewrite text_eqb_neq; [reflexivity|]. intro X. apply (f_equal (@length ascii)) in X. rewrite app_length in X. cbn [length] in X. lia.
Qed.

(* a message of error with an end of line: another test, said to pass, is read *)
Theorem message_line_refuted : forall comment threshold t a y b, word t -> word a -> word y -> word b -> t <> y -> (forall s, t <> hash :: s) -> (forall s, y <> hash :: s) ->
  import_from_file (dump comment (summarize threshold [mkO t (Some (Other (a ++ nl :: y ++ sp :: lit "OK" ++ sp :: b))) None None] [])) =
  Ok [(t, [lit "KO[" ++ a]); (y, [lit "OK"; b ++ lit "]"])].
Proof.
  intros c thr t a y b Wt Wa Wy Wb NE NT NY. cbn [summarize put title fields_of failed].
  transitivity (import_from_file (dump c [(t, [lit "KO[" ++ a]); (y, [lit "OK"; b ++ lit "]"])])).
  - f_equal. unfold dump. do 4 f_equal. cbn [map concat fst snd]. rewrite !app_nil_r. change (join sp [t; ?x]) with (t ++ sp :: x). change (join sp [y; ?x; ?z]) with (y ++ sp :: x ++ sp :: z).
    repeat (rewrite <- ?app_assoc; cbn [app]). reflexivity.
  - apply summary_roundtrip.
    + intros x f [X|[X|[]]]; injection X as <- <-.
      * split; [exact Wt|]. split; [exact NT|]. intros w [<-|[]]. destruct Wa as [W1 W2]. split; intro X; cbn in X; repeat (destruct X as [X|X]; [discriminate X|]); contradiction.
      * split; [exact Wy|]. split; [exact NY|]. destruct Wb as [W1 W2]. intros w [<-|[<-|[]]].
        -- split; intro X; cbn in X; repeat (destruct X as [X|X]; [discriminate X|]); contradiction.
        -- split; intro X; apply in_app_or in X; (destruct X as [X|[X|[]]]; [contradiction|discriminate X]).
    + constructor; [intros [X|[]]; now apply NE|]. constructor; [intros []|constructor].
Qed.

(* ---- examples ---- *)
Definition digits (s : text) : option num :=
  if text_eqb s (lit "4.00") then Some (Fin 4) else if text_eqb s (lit "5.00") then Some (Fin 5) else if text_eqb s (lit "0.00") then Some (Fin 0) else if text_eqb s (lit "nan") then Some NaN else None.
Definition s1 : test_map := [(lit "exp", [lit "OK"; lit "4.00"; lit "1.0"]); (lit "log", [lit "KO[B]"]); (lit "sin", [lit "OK"; lit "5.00"; lit "-"]); (lit "cos", [lit "OK"; lit "-"; lit "-"]); (lit "tan", [lit "KO[V]"; lit "4.00"; lit "-"]); (lit "old", [lit "OK"; lit "4.00"; lit "-"])].
Definition s2 : test_map := [(lit "log", [lit "OK"; lit "4.00"; lit "-"]); (lit "exp", [lit "OK"; lit "5.00"; lit "1.0"]); (lit "sin", [lit "KO[G]"]); (lit "cos", [lit "OK"; lit "4.00"; lit "-"]); (lit "tan", [lit "KO[B]"]); (lit "new", [lit "KO[B]"])].
Example s1_s2 : compare digits s1 s2 = Ok [(lit "exp", Decreased (Fin ((1 - 5 / 4) * 100))); (lit "log", Upgraded); (lit "sin", Downgraded); (lit "cos", NotFound); (lit "old", NotFound)].
Proof. reflexivity. Qed.
Example s1_writable : writable s1 /\ keys_once s1.
Proof.
  split; [|repeat constructor; cbn; intuition discriminate].
  intros x f H. repeat (destruct H as [H|H]; [injection H as <- <-; split; [split; cbn; intuition discriminate|split; [discriminate|]]; intros w Hw; repeat (destruct Hw as [<-|Hw]; [split; cbn; intuition discriminate|]); destruct Hw|]). destruct H.
Qed.
Example s1_dumped : import_from_file (dump (lit "hash: 16d59f0") s1) = Ok s1.
Proof. reflexivity. Qed.
Example report_s1 : length (listed 10 10 (Some 3) [(lit "exp", perf_comp (Fin 4) (Fin 5))]) = 1 /\ category 30 30 (perf_comp (Fin 4) (Fin 5)) = None.
Proof. split; reflexivity. Qed.
Example zero_example : compare digits [(lit "a", [lit "KO[B]"]); (lit "exp", [lit "OK"; lit "0.00"])] [(lit "exp", [lit "OK"; lit "4.00"])] = Err ZeroDivisionError.
Proof. reflexivity. Qed.
Example run_summary : summarize 2 [mkO (lit "exp") None (Some (lit "4.00")) (Some (Fin 1, lit "1.0")); mkO (lit "log") (Some Build) None None; mkO (lit "log") None None (Some (Fin 3, lit "3.0"))] []
  = [(lit "exp", [lit "OK"; lit "4.00"; lit "1.0"]); (lit "log", [lit "KO[V]"; lit "-"; lit "3.0"])].
Proof. reflexivity. Qed.

Print Assumptions summary_roundtrip.
Print Assumptions compare_classes.
Print Assumptions compare_covers.
Print Assumptions compare_swapped.
Print Assumptions summary_complete.
Print Assumptions summary_status.
Print Assumptions compare_fails_iff.
Print Assumptions report_counts.
Print Assumptions report_thresholds.
Print Assumptions zero_reference_refuted.
Print Assumptions same_improved_refuted.
Print Assumptions nan_improved_refuted.
Print Assumptions new_tests_refuted.
Print Assumptions lost_tests_refuted.
Print Assumptions title_space_refuted.
Print Assumptions message_line_refuted.
