(* Proofs about reports, displays and groups of functions. *)
From Coq Require Import String Ascii List Arith Bool Lia.
From Verif Require Import RepModel RepSpec.
Import ListNotations.
Local Open Scope string_scope.

Lemma pyformat_plain s args : plain s -> pyformat s args = Some s.
Proof.
  unfold plain. induction s as [| c t IH]; intros [L R]; [reflexivity |].
  destruct L as [L1 L2], R as [R1 R2].
  cbn [pyformat]. unfold lbrace, rbrace. rewrite (proj2 (Ascii.eqb_neq _ _) L1), (proj2 (Ascii.eqb_neq _ _) R1), IH by (split; assumption).
  reflexivity.
Qed.
Lemma pyformat_app_plain s t args : plain s -> pyformat (s ++ t) args = option_map (append s) (pyformat t args).
Proof.
  unfold plain. induction s as [| c u IH]; intros [L R].
  - cbn [append]. destruct (pyformat t args); reflexivity.
  - destruct L as [L1 L2], R as [R1 R2]. cbn [append pyformat]. unfold lbrace, rbrace.
    rewrite (proj2 (Ascii.eqb_neq _ _) L1), (proj2 (Ascii.eqb_neq _ _) R1), IH by (split; assumption).
    destruct (pyformat t args); reflexivity.
Qed.
Lemma pyformat_field s t a args :
  plain s -> pyformat (s ++ "{}" ++ t) (a :: args) = option_map (fun x => s ++ a ++ x) (pyformat t args).
Proof.
  intro P. rewrite pyformat_app_plain by exact P.
  change (pyformat ("{}" ++ t) (a :: args)) with (option_map (append a) (pyformat t args)).
  destruct (pyformat t args); reflexivity.
Qed.
Lemma pyformat_open s t args : plain s -> plain t -> pyformat (s ++ "{" ++ t) args = None.
Proof.
  intros P Q. rewrite pyformat_app_plain by exact P.
  change ("{" ++ t) with (String lbrace t). cbn [pyformat]. unfold lbrace, rbrace. rewrite Ascii.eqb_refl.
  destruct t as [| d u]; [reflexivity |].
  destruct Q as [[L _] [R _]].
  rewrite (proj2 (Ascii.eqb_neq _ _) L), (proj2 (Ascii.eqb_neq _ _) R). reflexivity.
Qed.

Lemma lmatch_iff f l :
  lmatch f l = true <-> lv_name f = lv_name l /\ (lv_sub f = None \/ (lv_sub f <> None /\ lv_sub f = lv_sub l)).
Proof.
  unfold lmatch. destruct (String.eqb_spec (lv_name l) (lv_name f)) as [E | E]; cbn [negb].
  - destruct (lv_sub f) as [s |].
    + destruct (lv_sub l) as [u |].
      * destruct (String.eqb_spec s u) as [E2 | E2].
        -- subst. split; [intros _; split; [symmetry; exact E | right; split; [discriminate | reflexivity]] | reflexivity].
        -- split; [discriminate | intros [_ [D | [_ D]]]; [discriminate | injection D; intro; contradiction]].
      * split; [discriminate | intros [_ [D | [_ D]]]; discriminate].
    + split; [intros _; split; [symmetry; exact E | left; reflexivity] | reflexivity].
  - split; [discriminate | intros [D _]; symmetry in D; contradiction].
Qed.
Lemma filter_iff fl l : filter_log_level fl l = true <-> asked fl l.
Proof.
  unfold asked. induction fl as [| f t IH]; cbn [filter_log_level].
  - split; [discriminate | intros [f [[] _]]].
  - destruct (lmatch f l) eqn:E.
    + split; [intros _ | reflexivity]. exists f. split; [left; reflexivity | apply lmatch_iff; exact E].
    + rewrite IH. split; intros [x [I M]].
      * exists x. split; [right; exact I | exact M].
      * destruct I as [-> | I]; [apply lmatch_iff in M; congruence |].
        exists x. split; assumption.
Qed.
Lemma filter_app fl f l : filter_log_level (fl ++ [f]) l = filter_log_level fl l || lmatch f l.
Proof.
  induction fl as [| a t IH]; cbn [filter_log_level app orb].
  - destruct (lmatch f l); reflexivity.
  - destruct (lmatch a l); [reflexivity | exact IH].
Qed.

Lemma occurs_app c a b : occurs c (a ++ b) = occurs c a + occurs c b.
Proof.
  induction a as [| d t IH]; [reflexivity |]. cbn [append occurs]. rewrite IH. lia.
Qed.
Lemma occurs_free c v : free c v -> occurs c v = 0.
Proof.
  induction v as [| d t IH]; [reflexivity |]. intros [N F]. cbn [occurs].
  rewrite (proj2 (Ascii.eqb_neq _ _) N), IH by exact F. reflexivity.
Qed.
Lemma occurs_concat c s f n : forall i, (forall j, occurs c (f j) = 0) ->
  occurs c (String.concat s (rep n f i)) = occurs c s * (n - 1).
Proof.
  induction n as [| m IH]; intros i F; [cbn; lia |].
  destruct m as [| k].
  - cbn [rep String.concat]. rewrite F. lia.
  - change (String.concat s (rep (S (S k)) f i)) with (f i ++ s ++ String.concat s (rep (S k) f (S i))).
    rewrite !occurs_app, F, (IH (S i) F). lia.
Qed.
Lemma occurs_concat_one c s f n k : forall i, occurs c s = 0 -> (forall j, occurs c (f j) = k) ->
  occurs c (String.concat s (rep n f i)) = k * n.
Proof.
  induction n as [| m IH]; intros i Z1 F; [cbn; lia |].
  destruct m as [| q].
  - cbn [rep String.concat]. rewrite F. lia.
  - change (String.concat s (rep (S (S q)) f i)) with (f i ++ s ++ String.concat s (rep (S q) f (S i))).
    rewrite !occurs_app, F, Z1, (IH (S i) Z1 F). lia.
Qed.
Lemma concat_app s a b : a <> [] -> b <> [] -> String.concat s (a ++ b)%list = String.concat s a ++ s ++ String.concat s b.
Proof.
  intros NA NB. induction a as [| x t IH]; [contradiction |].
  destruct t as [| y t].
  - cbn [app]. destruct b as [| z b]; [contradiction |]. reflexivity.
  - change (String.concat s ((x :: y :: t) ++ b)%list) with (x ++ s ++ String.concat s ((y :: t) ++ b)%list).
    rewrite IH by discriminate.
    change (String.concat s (x :: y :: t)) with (x ++ s ++ String.concat s (y :: t)).
    assert (A : forall p q r : string, (p ++ q) ++ r = p ++ q ++ r).
    { induction p as [| ch p IHp]; intros q r; [reflexivity | cbn [append]; rewrite IHp; reflexivity]. }
    rewrite !A. reflexivity.
Qed.
Lemma rep_nil n f i : 0 < n -> rep n f i <> [].
Proof. destruct n; [lia | discriminate]. Qed.
Lemma digit_comma n : occurs ","%char (digit n) = 0.
Proof. do 10 (destruct n as [| n]; [reflexivity |]). reflexivity. Qed.
Lemma element_comma v k n : free ","%char v -> occurs ","%char k = 0 -> occurs ","%char (v ++ k ++ digit n ++ "]") = 0.
Proof.
  intros F K. rewrite !occurs_app, (occurs_free _ _ F), K, digit_comma. reflexivity.
Qed.

Lemma vector_consistent conv n : 0 < n -> conversions conv = 1 -> consistent (vector_display conv n).
Proof.
  intros N C v F. unfold arguments, conversions in *. cbn [pre_process format_string vector_display].
  rewrite !occurs_app, (occurs_concat ","%char ", " _ n 0 (fun j => element_comma v "[" j F eq_refl)),
    (occurs_concat_one "%"%char ", " _ n 1 0 eq_refl (fun _ => C)).
  change (occurs "," ", ") with 1. change (occurs "%" "[") with 0. change (occurs "%" "]") with 0. lia.
Qed.
Lemma limbs_arguments nf nh nl v : 0 < nh -> 0 < nl -> free ","%char v ->
  arguments (pre_process (limbs_display nf nh nl) v) = nh + nl.
Proof.
  intros H L F. unfold arguments. cbn [pre_process limbs_display].
  rewrite concat_app by (apply rep_nil; assumption).
  rewrite !occurs_app.
  rewrite (occurs_concat ","%char ", " _ nh 0 (fun j => element_comma v ".hi[" j F eq_refl)),
    (occurs_concat ","%char ", " _ nl 0 (fun j => element_comma v ".lo[" j F eq_refl)).
  change (occurs "," ", ") with 1. lia.
Qed.
Lemma limbs_conversions nf nh nl : conversions (format_string (limbs_display nf nh nl)) = nf + nf.
Proof.
  unfold conversions. cbn [format_string limbs_display].
  rewrite !occurs_app.
  rewrite !(occurs_concat_one "%"%char ", " (fun _ => "%a") nf 1 0 eq_refl (fun _ => eq_refl)).
  change (occurs "%" "{{.hi=[") with 0. change (occurs "%" "], .lo=[") with 0. change (occurs "%" "]}}") with 0. lia.
Qed.

Lemma self_loop_never fuel : forall i l, i < length l -> self_loop fuel i l = None.
Proof.
  induction fuel as [| m IH]; intros i l L; [reflexivity |].
  cbn [self_loop]. destruct (nth_error l i) as [f |] eqn:E.
  - apply IH. rewrite app_length. cbn [length]. lia.
  - apply nth_error_None in E. lia.
Qed.

Lemma key_eqb_refl k : key_eqb k k = true.
Proof. destruct k as [[i f] s]. cbn [key_eqb]. rewrite !Nat.eqb_refl. destruct s; [rewrite Nat.eqb_refl |]; reflexivity. Qed.
Lemma key_eqb_eq a b : key_eqb a b = true -> a = b.
Proof.
  destruct a as [[i f] s], b as [[j g] t]. cbn [key_eqb]. intro H.
  apply andb_prop in H. destruct H as [H1 H3]. apply andb_prop in H1. destruct H1 as [H1 H2].
  apply Nat.eqb_eq in H1, H2. subst. destruct s as [x |], t as [y |]; try discriminate; [| reflexivity].
  apply Nat.eqb_eq in H3. subst. reflexivity.
Qed.
Section Build.
Variables shift scale : nat -> string.
Definition keyof (f : fixfmt) : dkey := (fx_int f, fx_frac f, fx_support f).
Lemma lookup_build f k m d : lookup k m = Some d -> lookup k (snd (build_display shift scale f m)) = Some d.
Proof.
  intro L. unfold build_display. destruct (lookup (fx_int f, fx_frac f, fx_support f) m) eqn:E; [exact L |].
  cbn [snd lookup]. destruct (key_eqb k (fx_int f, fx_frac f, fx_support f)) eqn:K; [| exact L].
  apply key_eqb_eq in K. subst. congruence.
Qed.
Lemma lookup_all fs k d : forall m, lookup k m = Some d -> lookup k (build_all shift scale fs m) = Some d.
Proof.
  induction fs as [| f t IH]; intros m L; [exact L |]. cbn [build_all]. apply IH. apply lookup_build. exact L.
Qed.
Lemma built_first f m : lookup (keyof f) m = None ->
  build_display shift scale f m = (new_display shift scale f, (keyof f, new_display shift scale f) :: m).
Proof. intro L. unfold build_display, keyof in *. rewrite L. reflexivity. Qed.
(* whatever is built between, a format of the same key gets the first display *)
Lemma built_again f g fs m : lookup (keyof f) m = None -> keyof g = keyof f ->
  fst (build_display shift scale g (build_all shift scale (f :: fs) m)) = new_display shift scale f.
Proof.
  intros L K. cbn [build_all]. rewrite (built_first f m L). cbn [snd].
  assert (E : lookup (keyof g) (build_all shift scale fs ((keyof f, new_display shift scale f) :: m)) = Some (new_display shift scale f)).
  { apply lookup_all. rewrite K. cbn [lookup]. rewrite key_eqb_refl. reflexivity. }
  unfold build_display. unfold keyof in E at 1. rewrite E. reflexivity.
Qed.
End Build.
