(* Proofs about summaries of tests. *)
From Coq Require Import Ascii String List Bool ZArith QArith Qabs Lia Lqa.
From Verif Require Import TsumModel TsumSpec.
Import ListNotations.
Open Scope nat_scope.

Lemma text_eqb_iff : forall a b, text_eqb a b = true <-> a = b.
Proof.
  induction a as [|x a IH]; intros [|y b]; cbn [text_eqb]; [tauto|split; discriminate|split; discriminate|].
  rewrite andb_true_iff, IH, Ascii.eqb_eq. split; [intros [-> ->]; reflexivity|intro H; injection H as -> ->; split; reflexivity].
Qed.
Lemma text_eqb_refl : forall a, text_eqb a a = true. Proof. intro a. now apply text_eqb_iff. Qed.
Lemma text_eqb_neq : forall a b, a <> b -> text_eqb a b = false.
Proof. intros a b H. destruct (text_eqb a b) eqn:E; [apply text_eqb_iff in E; contradiction|reflexivity]. Qed.

(* ---- texts ---- *)
Lemma split_nonempty : forall c s, split_on c s <> [].
Proof. intros c [|x s]; cbn [split_on]; [discriminate|]. destruct (Ascii.eqb x c); [discriminate|]. destruct (split_on c s); discriminate. Qed.
Lemma split_word : forall c w, ~ In c w -> split_on c w = [w].
Proof.
  induction w as [|x w IH]; intro H; [reflexivity|]. cbn [split_on]. destruct (Ascii.eqb_spec x c) as [->|N]; [exfalso; apply H; now left|].
  rewrite IH; [reflexivity|]. intro X. apply H. now right.
Qed.
Lemma split_app : forall c w s, ~ In c w -> split_on c (w ++ c :: s) = w :: split_on c s.
Proof.
  induction w as [|x w IH]; intros s H; cbn [app split_on]; [now rewrite Ascii.eqb_refl|]. destruct (Ascii.eqb_spec x c) as [->|N]; [exfalso; apply H; now left|].
  rewrite IH; [reflexivity|]. intro X. apply H. now right.
Qed.
Lemma split_join : forall c l, l <> [] -> (forall w, In w l -> ~ In c w) -> split_on c (join c l) = l.
Proof.
  induction l as [|w l IH]; intros N H; [contradiction|]. destruct l as [|v l]; [apply split_word; apply H; now left|].
  change (join c (w :: v :: l)) with (w ++ c :: join c (v :: l)). rewrite split_app by (apply H; now left). rewrite IH; [reflexivity|discriminate|]. intros u Hu. apply H. now right.
Qed.
Lemma split_no : forall c s w, In w (split_on c s) -> ~ In c w.
Proof.
  induction s as [|x s IH]; intros w H; cbn [split_on] in H; [destruct H as [<-|[]]; intros []|].
  destruct (Ascii.eqb_spec x c) as [->|N]; [destruct H as [<-|H]; [intros []|apply IH; exact H]|].
  destruct (split_on c s) as [|v r] eqn:E; [now apply split_nonempty in E|]. destruct H as [<-|H]; [|apply IH; now right].
  intros [X|X]; [contradiction|]. exact (IH v (or_introl eq_refl) X).
Qed.
Lemma in_join : forall c l x, In x (join c l) -> x = c \/ exists w, In w l /\ In x w.
Proof.
  induction l as [|w l IH]; intros x H; [destruct H|]. destruct l as [|v l]; [right; exists w; split; [now left|exact H]|].
  change (join c (w :: v :: l)) with (w ++ c :: join c (v :: l)) in H. apply in_app_or in H. destruct H as [H|[H|H]]; [right; exists w; split; [now left|exact H]|now left|].
  destruct (IH x H) as [->|(u & Hu & Hx)]; [now left|right; exists u; split; [now right|exact Hx]].
Qed.
Lemma drop_last : forall l, drop_last_empty (l ++ [[]]) = l.
Proof. induction l as [|w l IH]; [reflexivity|]. cbn [app drop_last_empty]. rewrite IH. destruct w; [|reflexivity]. destruct l; reflexivity. Qed.
Lemma readlines_concat : forall l, (forall w, In w l -> ~ In nl w) -> readlines (concat (map (fun w => w ++ [nl]) l)) = l.
Proof.
  intros l H. unfold readlines. assert (E : split_on nl (concat (map (fun w => w ++ [nl]) l)) = l ++ [[]]); [|rewrite E; apply drop_last].
  induction l as [|w l IH]; [reflexivity|]. cbn [map concat]. rewrite <- app_assoc. cbn [app]. rewrite split_app by (apply H; now left). rewrite IH; [reflexivity|]. intros v Hv. apply H. now right.
Qed.

(* ---- dictionaries ---- *)
Section Dict.
Context {A : Type}.
Lemma put_new : forall (d : dict A) k v, ~ In k (map fst d) -> put d k v = d ++ [(k, v)].
Proof.
  induction d as [|[x w] d IH]; intros k v H; [reflexivity|]. cbn [put]. rewrite text_eqb_neq by (intros ->; apply H; now left). rewrite IH; [reflexivity|]. intro X. apply H. now right.
Qed.
Lemma get_put : forall (d : dict A) k v x, get (put d k v) x = if text_eqb k x then Some v else get d x.
Proof.
  induction d as [|[y w] d IH]; intros k v x; [reflexivity|]. cbn [put]. destruct (text_eqb y k) eqn:E; cbn [get].
  - apply text_eqb_iff in E. subst y. destruct (text_eqb k x); reflexivity.
  - rewrite IH. destruct (text_eqb y x) eqn:E1; [|reflexivity]. apply text_eqb_iff in E1. subst y. rewrite text_eqb_neq; [reflexivity|]. intros ->. rewrite text_eqb_refl in E. discriminate E.
Qed.
Lemma get_in : forall (d : dict A) k v, get d k = Some v -> In (k, v) d.
Proof.
  induction d as [|[x w] d IH]; intros k v H; [discriminate H|]. cbn [get] in H. destruct (text_eqb x k) eqn:E; [apply text_eqb_iff in E; subst; injection H as <-; now left|right; apply IH; exact H].
Qed.
Lemma in_get : forall (d : dict A) k v, keys_once d -> In (k, v) d -> get d k = Some v.
Proof.
  induction d as [|[x w] d IH]; intros k v ND H; [destruct H|]. cbn [get]. inversion ND as [|y l NI ND']; subst. destruct H as [H|H].
  - injection H as -> ->. now rewrite text_eqb_refl.
  - rewrite text_eqb_neq; [apply IH; assumption|]. intros ->. apply NI. apply in_map_iff. exists (k, v). split; [reflexivity|exact H].
Qed.
Lemma put_keys : forall (d : dict A) k v, keys_once d -> keys_once (put d k v).
Proof.
  assert (K : forall (d : dict A) k v x, In x (map fst (put d k v)) -> x = k \/ In x (map fst d)).
  { induction d as [|[y w] d IH]; intros k v x H; cbn [put] in H; [destruct H as [<-|[]]; now left|]. destruct (text_eqb y k); [right; exact H|]. destruct H as [<-|H]; [right; now left|]. destruct (IH k v x H); [now left|right; now right]. }
  induction d as [|[y w] d IH]; intros k v ND; cbn [put]; [constructor; [intros []|constructor]|]. inversion ND as [|z l NI ND']; subst.
  destruct (text_eqb y k) eqn:E; [exact ND|]. constructor; [|apply IH; exact ND']. intro X. destruct (K d k v y X) as [->|X']; [rewrite text_eqb_refl in E; discriminate E|contradiction].
Qed.
End Dict.

(* ---- reading a summary back ---- *)
Lemma read_comments : forall l t m, (forall w, In w l -> starts hash w = true) -> read_tests (l ++ t) m = read_tests t m.
Proof. induction l as [|w l IH]; intros t m H; [reflexivity|]. cbn [app read_tests]. rewrite (H w) by now left. apply IH. intros v Hv. apply H. now right. Qed.
Lemma starts_join : forall x f, (forall t, x <> hash :: t) -> starts hash (join sp (x :: f)) = false.
Proof.
  intros [|c x] f H.
  - destruct f as [|v f]; [reflexivity|reflexivity].
  - assert (E : Ascii.eqb c hash = false) by (destruct (Ascii.eqb_spec c hash) as [->|N]; [exfalso; apply (H x); reflexivity|reflexivity]). destruct f; exact E.
Qed.
Lemma read_back : forall m acc, writable m -> keys_once (acc ++ m) -> read_tests (map (fun e => join sp (fst e :: snd e)) m) acc = acc ++ m.
Proof.
  induction m as [|[x f] m IH]; intros acc W ND; [now rewrite app_nil_r|]. cbn [map fst snd read_tests]. destruct (W x f (or_introl eq_refl)) as (Wx & NH & Wf).
  rewrite starts_join by exact NH. rewrite split_join; [|discriminate|intros w [<-|Hw]; [apply Wx|apply Wf; exact Hw]].
  rewrite put_new.
  - rewrite IH; [now rewrite <- app_assoc|intros y g Hy; apply W; now right|now rewrite <- app_assoc].
  - intro X. unfold keys_once in ND. rewrite map_app in ND. cbn [map fst] in ND. apply NoDup_remove_2 in ND. apply ND. apply in_or_app. now left.
Qed.

(* ---- comparison ---- *)
Lemma ok_iff : forall s, is_ok s = true <-> s = lit "OK". Proof. intro s. apply text_eqb_iff. Qed.
Section Cmp.
Variable float : text -> option num.
Notation loop := (compare_loop float).
Definition one (res : test_map) (x : text) (rf : list text) : result (option comp) := match get res x with None => Ok (Some NotFound) | Some sf => compare_one float rf sf end.
Lemma loop_in : forall ref res l, loop ref res = Ok l -> forall x c, In (x, c) l <-> exists rf, In (x, rf) ref /\ one res x rf = Ok (Some c).
Proof.
  induction ref as [|[y f] ref IH]; intros res l E x c.
  - injection E as <-. split; [intros []|intros (rf & [] & _)].
  - cbn [compare_loop] in E. change (match get res y with None => Ok (Some NotFound) | Some sf => compare_one float f sf end) with (one res y f) in E.
    destruct (one res y f) as [o|e] eqn:O; [|discriminate E]. destruct (loop ref res) as [t|e] eqn:T; [|discriminate E]. injection E as <-. specialize (IH res t T x c).
    assert (X : (exists rf, In (x, rf) ((y, f) :: ref) /\ one res x rf = Ok (Some c)) <-> (x = y /\ o = Some c) \/ In (x, c) t).
    { split.
      - intros (rf & [H|H] & HO); [injection H as -> ->; rewrite O in HO; injection HO as ->; left; split; reflexivity|right; apply IH; exists rf; split; assumption].
      - intros [[-> ->]|H]; [exists f; split; [now left|exact O]|]. apply IH in H. destruct H as (rf & H & HO). exists rf. split; [now right|exact HO]. }
    rewrite X. destruct o as [d|]; [|split; [now right|intros [[_ H]|H]; [discriminate H|exact H]]].
    split; [intros [H|H]; [injection H as -> ->; left; split; reflexivity|now right]|intros [[-> H]|H]; [injection H as ->; now left|now right]].
Qed.
Lemma loop_ok : forall ref res, (exists l, loop ref res = Ok l) <-> forall x rf, In (x, rf) ref -> exists o, one res x rf = Ok o.
Proof.
  induction ref as [|[y f] ref IH]; intro res.
  - split; [intros _ x rf []|intros _; exists []; reflexivity].
  - specialize (IH res). cbn [compare_loop]. change (match get res y with None => Ok (Some NotFound) | Some sf => compare_one float f sf end) with (one res y f). split.
    + intros [l E] x rf [H|H].
      * injection H as -> ->. destruct (one res x rf) as [o|e]; [exists o; reflexivity|discriminate E].
      * destruct (one res y f) as [o|e]; [|discriminate E]. destruct (loop ref res) as [t|e]; [|discriminate E]. apply (proj1 IH (ex_intro _ t eq_refl) x rf H).
    + intro H. destruct (H y f (or_introl eq_refl)) as [o ->]. destruct (proj2 IH) as [t ->]; [intros x rf Hx; apply H; now right|]. eexists. reflexivity.
Qed.
Lemma loop_err : forall ref res e, loop ref res = Err e -> exists x rf, In (x, rf) ref /\ one res x rf = Err e.
Proof.
  induction ref as [|[y f] ref IH]; intros res e E; [discriminate E|]. cbn [compare_loop] in E. change (match get res y with None => Ok (Some NotFound) | Some sf => compare_one float f sf end) with (one res y f) in E.
  destruct (one res y f) as [o|e1] eqn:O; [|injection E as ->; exists y, f; split; [now left|exact O]].
  destruct (loop ref res) as [t|e1] eqn:T; [discriminate E|]. injection E as ->. destruct (IH res e T) as (x & rf & H & HO). exists x, rf. split; [now right|exact HO].
Qed.

(* what compare_one says *)
Lemma passing_head : forall s t, passing (s :: t) <-> is_ok s = true.
Proof. intros s t. rewrite ok_iff. split; [intros [u H]; now injection H|intros ->; exists t; reflexivity]. Qed.
Lemma passing_nil : ~ passing []. Proof. intros [t H]. discriminate H. Qed.
Lemma measured_iff : forall s t x, measured float (s :: t) x <-> is_ok s = true /\ exists w, nth_error (s :: t) 1 = Some w /\ float w = Some x.
Proof.
  intros s t x. rewrite ok_iff. split.
  - intros (w & u & H & F). injection H as -> ->. split; [reflexivity|]. exists w. split; [reflexivity|exact F].
  - intros [-> (w & N & F)]. destruct t as [|v t]; [discriminate N|]. injection N as ->. exists w, t. split; [reflexivity|exact F].
Qed.
Lemma one_down : forall rf sf, compare_one float rf sf = Ok (Some Downgraded) <-> passing rf /\ sf <> [] /\ ~ passing sf.
Proof.
  intros [|r rf] sf; cbn [compare_one]; [split; [discriminate|intros [H _]; now apply passing_nil in H]|]. destruct sf as [|s sf]; [split; [discriminate|intros (_ & H & _); contradiction]|].
  rewrite !passing_head. destruct (is_ok r) eqn:R, (is_ok s) eqn:S0; cbn [andb negb].
  - split; [|intros (_ & _ & H); contradiction]. unfold compare_perf. destruct (nth_error (r :: rf) 1) as [w|]; [|discriminate]. destruct (float w) as [a|]; [|discriminate].
    destruct (nth_error (s :: sf) 1) as [v|]; [|discriminate]. destruct (float v) as [b|]; [|discriminate]. destruct (is_zero a); [discriminate|]. unfold perf_comp. destruct (lt a b); discriminate.
  - split; [intros _; split; [reflexivity|split; [discriminate|discriminate]]|reflexivity].
  - split; [discriminate|intros [H _]; discriminate H].
  - split; [discriminate|intros [H _]; discriminate H].
Qed.
Lemma one_up : forall rf sf, compare_one float rf sf = Ok (Some Upgraded) <-> rf <> [] /\ ~ passing rf /\ passing sf.
Proof.
  intros [|r rf] sf; cbn [compare_one]; [split; [discriminate|intros [H _]; contradiction]|]. destruct sf as [|s sf]; [split; [discriminate|intros (_ & _ & H); now apply passing_nil in H]|].
  rewrite !passing_head. destruct (is_ok r) eqn:R, (is_ok s) eqn:S0; cbn [andb negb].
  - split; [|intros (_ & H & _); contradiction]. unfold compare_perf. destruct (nth_error (r :: rf) 1) as [w|]; [|discriminate]. destruct (float w) as [a|]; [|discriminate].
    destruct (nth_error (s :: sf) 1) as [v|]; [|discriminate]. destruct (float v) as [b|]; [|discriminate]. destruct (is_zero a); [discriminate|]. unfold perf_comp. destruct (lt a b); discriminate.
  - split; [discriminate|intros (_ & H & _); contradiction].
  - split; [intros _; split; [discriminate|split; [discriminate|reflexivity]]|reflexivity].
  - split; [discriminate|intros (_ & _ & H); discriminate H].
Qed.
Lemma one_perf : forall rf sf a b, measured float rf a -> measured float sf b -> compare_one float rf sf = if is_zero a then Err ZeroDivisionError else Ok (Some (perf_comp a b)).
Proof.
  intros rf sf a b (w & t & -> & FA) (v & u & -> & FB). cbn [compare_one]. replace (is_ok (lit "OK")) with true by reflexivity. cbn [andb negb]. unfold compare_perf. cbn [nth_error]. rewrite FA, FB. reflexivity.
Qed.
Lemma one_perf_inv : forall rf sf c, compare_one float rf sf = Ok (Some c) -> (exists p, c = Improved p \/ c = Decreased p) -> exists a b, measured float rf a /\ measured float sf b /\ is_zero a = false /\ c = perf_comp a b.
Proof.
  intros rf sf c E HC. destruct rf as [|r rf]; [discriminate E|]. destruct sf as [|s sf]; [discriminate E|]. cbn [compare_one] in E.
  destruct (is_ok r) eqn:R, (is_ok s) eqn:S0; cbn [andb negb] in E; try (injection E as <-; destruct HC as [p [H|H]]; discriminate H); [|discriminate E].
  unfold compare_perf in E. destruct (nth_error (r :: rf) 1) as [w|] eqn:N1; [|discriminate E]. destruct (float w) as [a|] eqn:FA; [|injection E as <-; destruct HC as [p [H|H]]; discriminate H].
  destruct (nth_error (s :: sf) 1) as [v|] eqn:N2; [|discriminate E]. destruct (float v) as [b|] eqn:FB; [|injection E as <-; destruct HC as [p [H|H]]; discriminate H].
  destruct (is_zero a) eqn:ZA; [discriminate E|]. injection E as <-. exists a, b. split; [apply measured_iff; split; [exact R|exists w; split; assumption]|]. split; [apply measured_iff; split; [exact S0|exists v; split; assumption]|]. split; [exact ZA|reflexivity].
Qed.
Lemma one_err : forall rf sf e, rf <> [] -> sf <> [] -> (passing rf -> exists s t, rf = lit "OK" :: s :: t) -> (passing sf -> exists s t, sf = lit "OK" :: s :: t) ->
  compare_one float rf sf = Err e -> e = ZeroDivisionError /\ exists a b, measured float rf a /\ measured float sf b /\ is_zero a = true.
Proof.
  intros rf sf e NR NS CR CS E. destruct rf as [|r rf]; [contradiction|]. destruct sf as [|s sf]; [contradiction|]. cbn [compare_one] in E.
  destruct (is_ok r) eqn:R, (is_ok s) eqn:S0; cbn [andb negb] in E; try discriminate E.
  destruct (CR (proj2 (passing_head r rf) R)) as (w & t & EQ). injection EQ as -> ->. destruct (CS (proj2 (passing_head s sf) S0)) as (v & u & EQ). injection EQ as -> ->.
  unfold compare_perf in E. cbn [nth_error] in E. destruct (float w) as [a|] eqn:FA; [|discriminate E]. destruct (float v) as [b|] eqn:FB; [|discriminate E]. destruct (is_zero a) eqn:ZA; [|discriminate E].
  injection E as <-. split; [reflexivity|]. exists a, b. split; [exists w, t; split; [reflexivity|exact FA]|]. split; [exists v, u; split; [reflexivity|exact FB]|exact ZA].
Qed.
Lemma one_none : forall rf sf, compare_one float rf sf = Ok None <-> rf <> [] /\ sf <> [] /\ ~ passing rf /\ ~ passing sf.
Proof.
  intros rf sf. destruct rf as [|r rf]; [split; [discriminate|intros [H _]; contradiction]|]. destruct sf as [|s sf]; [split; [discriminate|intros (_ & H & _); contradiction]|]. cbn [compare_one].
  rewrite !passing_head. destruct (is_ok r) eqn:R, (is_ok s) eqn:S0; cbn [andb negb].
  - split; [|intros (_ & _ & H & _); contradiction]. unfold compare_perf. destruct (nth_error (r :: rf) 1) as [w|]; [|discriminate]. destruct (float w) as [a|]; [|discriminate].
    destruct (nth_error (s :: sf) 1) as [v|]; [|discriminate]. destruct (float v) as [b|]; [|discriminate]. destruct (is_zero a); discriminate.
  - split; [discriminate|intros (_ & _ & H & _); contradiction].
  - split; [discriminate|intros (_ & _ & _ & H); contradiction].
  - split; [intros _; split; [discriminate|split; [discriminate|split; discriminate]]|reflexivity].
Qed.
End Cmp.

(* ---- categories ---- *)
Lemma listed_cons : forall i d k e l, listed i d k (e :: l) = if is_cat k (category i d (snd e)) then e :: listed i d k l else listed i d k l.
Proof. reflexivity. Qed.
Lemma partition_count : forall i d l, length (listed i d None l) + length (listed i d (Some 0) l) + length (listed i d (Some 1) l) + length (listed i d (Some 2) l) + length (listed i d (Some 3) l) = length l.
Proof.
  intros i d. induction l as [|[x c] l IH]; [reflexivity|]. rewrite !listed_cons. cbn [snd].
  destruct c as [| | |p|p]; cbn [category]; try destruct (above p _); cbn [is_cat Nat.eqb length]; lia.
Qed.
