(* Typing passes: the two passes compute the formats of the specification. *)
From Coq Require Import ZArith QArith List Bool Lia.
From Verif Require Import TypModel TypSpec.
Import ListNotations.
Open Scope Z_scope.

Lemma expr_rec' : forall P : expr -> Prop,
  (forall f, P (Var f)) -> (forall i, P (Cst i)) ->
  (forall k f itv args, Forall P args -> P (Op k f itv args)) -> forall e, P e.
Proof.
  intros P HV HC HO. fix IH 1. intros [f|i|k f itv args]; [apply HV|apply HC|].
  apply HO. induction args as [|a l IHl]; constructor; [apply IH|exact IHl].
Qed.

Definition abs_of (s : sort) : fmt := match s with SFloat => AFloat | SInt => AInt | SBool => ABool end.

Fixpoint annot (cv : nat -> cval) (e : expr) : expr :=
  match e with
  | Var _ | Cst _ => e
  | Op k _ itv args => Op k (Some (abs_of (sort_of cv e))) itv (map (annot cv) args)
  end.
Lemma fold_all : forall cv args, fold_right (fun a P => determined cv a /\ P) True args <-> Forall (determined cv) args.
Proof.
  intros cv args. induction args as [|a l IH]; cbn [fold_right].
  - split; constructor.
  - rewrite IH. split; [intros [? ?]; constructor; auto|intro H; inversion H; auto].
Qed.

(* ---- first pass ---- *)
Definition fresh (cv : nat -> cval) (st : store) : Prop := forall i, st i = None \/ st i = Some (cst_abstract (cv i)).
Definition class_is (s : sort) (f : option fmt) : Prop := exists g, f = Some g /\ fmt_sort g = s.

Lemma all_some_map : forall (l : list (option fmt)) (s : list sort), Forall2 class_is s l ->
  exists r, all_some l = Some r /\ map fmt_sort r = s.
Proof.
  intros l s H. induction H as [|s f ss l (g & -> & Hg) _ (r & Hr & Hm)]; [exists []; auto|].
  exists (g :: r). cbn [all_some map]. rewrite Hr, Hm, Hg. auto.
Qed.
Lemma joins_float : forall r, joins (map fmt_sort r) = SFloat <-> existsb is_float r = true.
Proof.
  intro r. induction r as [|f r IH]; cbn; [split; discriminate|].
  rewrite orb_true_iff, <- IH. fold (joins (map fmt_sort r)).
  destruct f; cbn; destruct (joins (map fmt_sort r)); intuition congruence.
Qed.
Lemma joins_int : forall r, joins (map fmt_sort r) = SInt -> existsb is_integer r = true.
Proof.
  intro r. induction r as [|f r IH]; cbn; try discriminate. fold (joins (map fmt_sort r)).
  destruct f; cbn; destruct (joins (map fmt_sort r)); cbn in *; try discriminate; auto.
Qed.
Lemma merge_abstract_sort : forall r, joins (map fmt_sort r) <> SBool ->
  merge_abstract r = Some (abs_of (joins (map fmt_sort r))).
Proof.
  intros r H. unfold merge_abstract. destruct (joins (map fmt_sort r)) eqn:E.
  - rewrite (proj1 (joins_float r) E). reflexivity.
  - destruct (existsb is_float r) eqn:F; [apply joins_float in F; congruence|].
    rewrite (joins_int r E). reflexivity.
  - congruence.
Qed.

Lemma fresh_class : forall (cv : nat -> cval) i, class_is (cst_sort (cv i)) (Some (cst_abstract (cv i))).
Proof. intros cv i. eexists. split; [reflexivity|]. destruct (cv i); reflexivity. Qed.
Lemma abs_class : forall s, fmt_sort (abs_of s) = s.
Proof. intros []; reflexivity. Qed.

Definition keeps (st st' : store) : Prop := forall i, st i <> None -> st' i = st i.
Lemma annot_class : forall cv e st, determined cv e -> (forall i, In i (csts e) -> st i = Some (cst_abstract (cv i))) ->
  class_is (sort_of cv e) (prec st (annot cv e)).
Proof.
  intros cv [f|i|k f itv args] st D H; cbn [annot prec].
  - eexists. split; reflexivity.
  - rewrite H by (left; reflexivity). apply fresh_class.
  - eexists. split; [reflexivity|apply abs_class].
Qed.
Lemma in_csts : forall i a args, In a args -> In i (csts a) -> In i (concat (map csts args)).
Proof. intros i a args Ha Hi. apply in_concat. exists (csts a). split; auto. apply in_map; auto. Qed.

Definition first_ok (cv : nat -> cval) (e : expr) := forall st, determined cv e -> fresh cv st ->
  exists st', abs_expr cv e st = Some (annot cv e, st') /\ fresh cv st' /\ keeps st st' /\
    (forall i, In i (csts e) -> st' i = Some (cst_abstract (cv i))).
Lemma first_list : forall cv args, Forall (first_ok cv) args -> Forall (determined cv) args -> forall st, fresh cv st ->
  exists st', go (abs_expr cv) args st = Some (map (annot cv) args, st') /\ fresh cv st' /\ keeps st st' /\
    (forall i, In i (concat (map csts args)) -> st' i = Some (cst_abstract (cv i))).
Proof.
  intros cv args H. induction H as [|a l Ha Hl IH]; intros D st F.
  - exists st. split; [reflexivity|split; [exact F|split; [intros ? ?; reflexivity|intros i []]]].
  - inversion D; subst. destruct (Ha st H1 F) as (s1 & E1 & F1 & K1 & C1).
    destruct (IH H2 s1 F1) as (s2 & E2 & F2 & K2 & C2).
    exists s2. cbn [go map]. rewrite E1, E2. split; [reflexivity|split; [exact F2|split]].
    + intros i Hi. rewrite K2; [apply K1; exact Hi|]. rewrite K1 by exact Hi. exact Hi.
    + intros i Hi. cbn [concat] in Hi. apply in_app_or in Hi. destruct Hi as [Hi|Hi]; [|apply C2; exact Hi].
      rewrite K2; [apply C1; exact Hi|]. rewrite C1 by exact Hi. discriminate.
Qed.
Lemma forall2_prec : forall cv st args, Forall (determined cv) args ->
  (forall i, In i (concat (map csts args)) -> st i = Some (cst_abstract (cv i))) ->
  Forall2 class_is (map (sort_of cv) args) (map (prec st) (map (annot cv) args)).
Proof.
  intros cv st args D. induction D as [|a l Ha Dl IH]; intro C; cbn [map]; constructor.
  - apply annot_class; auto. intros i Hi. apply C. cbn [map concat]. apply in_or_app. auto.
  - apply IH. intros i Hi. apply C. cbn [map concat]. apply in_or_app. auto.
Qed.
Lemma first_pass : forall cv e, first_ok cv e.
Proof.
  intro cv. apply expr_rec'.
  - intros f st _ F. exists st. split; [reflexivity|split; [exact F|split; [intros ? ?; reflexivity|intros i []]]].
  - intros i st D F. cbn [abs_expr annot]. destruct (F i) as [E|E]; rewrite E.
    + exists (upd st i (Some (cst_abstract (cv i)))). split; [reflexivity|split; [|split]].
      * intro j. unfold upd. destruct (Nat.eqb_spec j i); subst; auto.
      * intros j Hj. unfold upd. destruct (Nat.eqb_spec j i); subst; congruence.
      * intros j [<-|[]]. unfold upd. rewrite Nat.eqb_refl. reflexivity.
    + exists st. split; [reflexivity|split; [exact F|split; [intros ? ?; reflexivity|]]]. intros j [<-|[]]. exact E.
  - intros k f itv args IH st D F. cbn [determined] in D. destruct D as (-> & Da & Dk).
    apply fold_all in Da. destruct (first_list cv args IH Da st F) as (s1 & E1 & F1 & K1 & C1).
    exists s1. cbn [abs_expr]. rewrite E1. split; [|split; [exact F1|split; [exact K1|exact C1]]].
    pose proof (forall2_prec cv s1 args Da C1) as P.
    assert (abs_rule k (map (prec s1) (map (annot cv) args)) = Some (abs_of (sort_of cv (Op k None itv args)))) as ->;
      [|reflexivity].
    destruct k; cbn [abs_rule sort_of abs_of]; try reflexivity.
    + destruct (all_some_map _ _ P) as (r & R1 & R2). unfold merge_abstract_o. rewrite R1, <- R2.
      apply merge_abstract_sort. rewrite R2. apply (proj2 Dk).
    + destruct (all_some_map _ _ P) as (r & R1 & R2). unfold merge_abstract_o. rewrite R1, <- R2.
      apply merge_abstract_sort. rewrite R2. apply (proj2 Dk).
    + destruct Dk as ((c & a & b & ->) & Dk & Ds). cbn [map tl] in *.
      inversion P; subst.
      destruct (all_some_map _ _ H4) as (r & R1 & R2). unfold merge_abstract_o. rewrite R1, <- R2.
      apply merge_abstract_sort. rewrite R2. apply Ds.
Qed.

(* ---- formats ---- *)
Definition is_ffp (f : fmt) : bool := match f with FFP _ => true | _ => false end.
Definition ops (l : list expr) (m : list fmt) : list fmt := map snd (filter (fun p => negb (is_cst (fst p))) (combine l m)).
Lemma format_of_op : forall cv k f itv args, format_of cv (Op k f itv args) =
  match k with
  | KArith | KUnary | KBit | KMant => merged (is_sfloat (sort_of cv (Op k f itv args))) (ops args (map (format_of cv) args))
  | KSelect => merged (is_sfloat (sort_of cv (Op k f itv args))) (ops (tl args) (tl (map (format_of cv) args)))
  | KInt => integer_format itv
  | KBool | KCmp => FInt 32 true
  | KExpIns => AFloat
  end.
Proof. intros. destruct k; reflexivity. Qed.
Lemma ops_cons : forall a l cv, ops (a :: l) (map (format_of cv) (a :: l)) =
  if is_cst a then ops l (map (format_of cv) l) else format_of cv a :: ops l (map (format_of cv) l).
Proof. intros a l cv. unfold ops. cbn [map combine filter fst]. destruct (is_cst a); reflexivity. Qed.

Lemma largest_cases : forall (P : Z -> Prop) l, (forall f, In f l -> P (bits f) /\ 0 < bits f) -> l <> [] -> P (largest l).
Proof.
  intros P l H Hn. enough (P (largest l) /\ 0 < largest l) by tauto.
  induction l as [|f l IH]; [congruence|].
  unfold largest. cbn [map fold_right]. fold (largest l).
  assert (P (bits f) /\ 0 < bits f) as Hf by (apply H; left; reflexivity).
  destruct l as [|g l].
  - unfold largest. cbn [map fold_right]. rewrite Z.max_l by lia. exact Hf.
  - assert (P (largest (g :: l)) /\ 0 < largest (g :: l)) as Hl.
    { apply IH; [intros x Hx; apply H; right; exact Hx|discriminate]. }
    destruct (Z.max_spec (bits f) (largest (g :: l))) as [[_ ->]|[_ ->]]; assumption.
Qed.

Definition good (cv : nat -> cval) (e : expr) : Prop :=
  determined cv e -> is_cst e = false ->
  supported (format_of cv e) /\ is_ffp (format_of cv e) = is_sfloat (sort_of cv e).
Lemma ops_nonempty : forall cv l, existsb (fun a => negb (is_cst a)) l = true -> ops l (map (format_of cv) l) <> [].
Proof.
  intros cv l. induction l as [|a l IH]; [discriminate|]. rewrite ops_cons. cbn [existsb].
  destruct (is_cst a); cbn [negb orb]; [exact IH|discriminate].
Qed.
Lemma ops_good : forall cv l, Forall (good cv) l -> Forall (determined cv) l -> forall f, In f (ops l (map (format_of cv) l)) ->
  supported f /\ (joins (map (sort_of cv) l) <> SFloat -> is_ffp f = false).
Proof.
  intros cv l H. induction H as [|a l Ha Hl IH]; intros D f Hf; [destruct Hf|].
  inversion D; subst. rewrite ops_cons in Hf. cbn [map]. unfold joins. cbn [fold_right]. fold (joins (map (sort_of cv) l)).
  assert (join (sort_of cv a) (joins (map (sort_of cv) l)) <> SFloat ->
     sort_of cv a <> SFloat /\ joins (map (sort_of cv) l) <> SFloat) as J.
  { intro J. split; intro E; apply J; rewrite E; [reflexivity|]. destruct (sort_of cv a); reflexivity. }
  destruct (is_cst a) eqn:Ec.
  - destruct (IH H2 f Hf) as [A B]. split; [exact A|]. intro K. apply B. apply J. exact K.
  - destruct Hf as [<-|Hf].
    + destruct (Ha H1 Ec) as [A B]. split; [exact A|]. intro K. rewrite B. destruct (J K) as [K1 _].
      destruct (sort_of cv a); try reflexivity. congruence.
    + destruct (IH H2 f Hf) as [A B]. split; [exact A|]. intro K. apply B. apply J. exact K.
Qed.
Lemma merged_supported : forall b l, l <> [] -> (forall f, In f l -> supported f /\ (b = false -> is_ffp f = false)) ->
  supported (merged b l) /\ is_ffp (merged b l) = b.
Proof.
  intros b l Hn H. unfold merged. destruct b; split; try reflexivity; cbn [supported].
  - apply (largest_cases (fun n => n = 16 \/ n = 32 \/ n = 64)); auto.
    intros f Hf. destruct (H f Hf) as [S _]. destruct f; cbn [supported bits] in *; intuition lia.
  - apply (largest_cases (fun n => n = 32 \/ n = 64)); auto.
    intros f Hf. destruct (H f Hf) as [S N]. specialize (N eq_refl).
    destruct f; cbn [supported bits is_ffp] in *; try discriminate; intuition lia.
Qed.
Lemma integer_format_int : forall itv, exists n s, integer_format itv = FInt n s /\ (n = 32 \/ n = 64).
Proof.
  intros [[lo hi]|]; cbn [integer_format]; [|eauto].
  repeat match goal with |- context [if ?c then _ else _] => destruct c end; eauto.
Qed.
Lemma sfloat_not : forall s, is_sfloat s = false <-> s <> SFloat.
Proof. intros []; cbn; split; congruence. Qed.
Lemma all_good : forall cv e, good cv e.
Proof.
  intro cv. apply expr_rec'.
  - intros f D _. cbn [determined format_of sort_of] in *. split; [exact D|].
    destruct f; try reflexivity; destruct D.
  - intros i _ C. discriminate C.
  - intros k f itv args IH D _. cbn [determined] in D. destruct D as (-> & Da & Dk). apply fold_all in Da.
    rewrite format_of_op.
    destruct k.
    + apply merged_supported; [apply ops_nonempty; apply Dk|]. intros g Hg.
      destruct (ops_good cv args IH Da g Hg) as [A B]. split; auto. intro C. apply B. apply sfloat_not. exact C.
    + apply merged_supported; [apply ops_nonempty; apply Dk|]. intros g Hg.
      destruct (ops_good cv args IH Da g Hg) as [A B]. split; auto. intro C. apply B. apply sfloat_not. exact C.
    + destruct Dk as ((c & a & b & ->) & Dk & Ds). cbn [map tl] in *.
      change [format_of cv a; format_of cv b] with (map (format_of cv) [a; b]).
      apply merged_supported; [apply ops_nonempty; apply Dk|]. intros g Hg.
      inversion IH; inversion Da; subst.
      destruct (ops_good cv [a; b] H2 H6 g Hg) as [A B]. split; auto. intro C. apply B. apply sfloat_not. exact C.
    + destruct (integer_format_int itv) as (n & s & -> & Hn). cbn. tauto.
    + cbn. tauto.
    + cbn. tauto.
    + apply merged_supported; [apply ops_nonempty; apply Dk|]. intros g Hg.
      destruct (ops_good cv args IH Da g Hg) as [A B]. split; auto. intros _. apply B. apply (proj2 Dk).
    + apply merged_supported; [apply ops_nonempty; apply Dk|]. intros g Hg.
      destruct (ops_good cv args IH Da g Hg) as [A B]. split; auto. intro C. discriminate C.
    + destruct Dk.
Qed.

(* ---- merging ---- *)
Lemma any_signed_ints : forall l, (forall f, In f l -> supported f /\ is_ffp f = false) -> any_signed l = Some (existsb signed l).
Proof.
  induction l as [|f l IH]; intro H; [reflexivity|].
  assert (supported f /\ is_ffp f = false) as [S N] by (apply H; left; reflexivity).
  destruct f; cbn [supported is_ffp] in *; try discriminate; try destruct S.
  all: cbn [any_signed get_signed existsb signed]; destruct s; [reflexivity|]; apply IH; intros g Hg; apply H; right; exact Hg.
Qed.
Lemma merge_float_spec : forall r l, concretes r = l -> l <> [] -> (forall f, In f l -> supported f) ->
  merge_float r = Some (merged true l).
Proof.
  intros r l E N H. unfold merge_float, max_bits. rewrite E. fold (largest l).
  assert (largest l = 16 \/ largest l = 32 \/ largest l = 64) as L.
  { apply (merged_supported true l N). intros f Hf. split; [apply H; exact Hf|discriminate]. }
  destruct l; [congruence|]. destruct L as [L|[L|L]]; rewrite L; cbn [Z.eqb Pos.eqb orb]; unfold merged; rewrite L; reflexivity.
Qed.
Lemma merge_integer_spec : forall r l, concretes r = l -> l <> [] -> (forall f, In f l -> supported f /\ is_ffp f = false) ->
  merge_integer r = Some (merged false l).
Proof.
  intros r l E N H. unfold merge_integer, max_bits. rewrite E. rewrite any_signed_ints by exact H. fold (largest l).
  assert (largest l = 32 \/ largest l = 64) as L.
  { apply (merged_supported false l N). intros f Hf. split; [apply H; exact Hf|intro; apply H; exact Hf]. }
  destruct L as [L|L]; rewrite L; cbn [Z.eqb Pos.eqb orb]; unfold merged; rewrite L; reflexivity.
Qed.

Definition in_pass (cv : nat -> cval) (st : store) (a : expr) : Prop :=
  is_cst a = true -> prec st a = Some (abs_of (sort_of cv a)).
Lemma supported_concrete : forall f, supported f -> is_abstract f = false.
Proof. intros []; cbn; tauto. Qed.
Lemma precs : forall cv st l, Forall (determined cv) l -> Forall (in_pass cv st) l ->
  exists r, all_some (map (prec st) (map (with_formats cv) l)) = Some r /\
    concretes r = ops l (map (format_of cv) l) /\
    (forall f, In f r -> is_vector f = false) /\
    (joins (map (sort_of cv) l) <> SFloat -> forall f, In f r -> is_float f = false) /\ (l <> [] -> r <> []).
Proof.
  intros cv st l D. induction D as [|a l Ha Dl IH]; intro H.
  - exists []. cbn. intuition.
  - inversion H; subst. destruct (IH H3) as (r & R1 & R2 & R3 & R4 & R5).
    assert (exists g, prec st (with_formats cv a) = Some g /\ is_vector g = false /\ (sort_of cv a <> SFloat -> is_float g = false) /\
      (if is_cst a then is_abstract g = true else g = format_of cv a /\ is_abstract g = false)) as (g & G1 & G2 & G3 & G4).
    { destruct (is_cst a) eqn:Ec.
      - destruct a as [|i|]; try discriminate. cbn [with_formats]. rewrite (H2 Ec). eexists. split; [reflexivity|].
        destruct (sort_of cv (Cst i)); cbn; intuition congruence.
      - destruct (all_good cv a Ha Ec) as [S F]. exists (format_of cv a).
        split; [destruct a; [reflexivity|discriminate|reflexivity]|].
        split; [destruct (format_of cv a); try reflexivity; destruct S|]. split.
        + intro N. apply sfloat_not in N. rewrite N in F. destruct (format_of cv a); try reflexivity; try discriminate; destruct S.
        + split; [reflexivity|apply supported_concrete; exact S]. }
    exists (g :: r). cbn [map all_some]. rewrite G1, R1. split; [reflexivity|]. split; [|split; [|split]].
    + unfold concretes. cbn [filter]. fold (concretes r). change (format_of cv a :: map (format_of cv) l) with (map (format_of cv) (a :: l)).
      rewrite ops_cons, <- R2.
      destruct (is_cst a); [rewrite G4; reflexivity|destruct G4 as [-> G4]; rewrite G4; reflexivity].
    + intros f [<-|Hf]; auto.
    + intros J f [<-|Hf].
      * apply G3. intro E. apply J. unfold joins. cbn [map fold_right]. rewrite E. reflexivity.
      * apply R4; auto. intro E. apply J. unfold joins. cbn [map fold_right]. fold (joins (map (sort_of cv) l)). rewrite E.
        destruct (sort_of cv a); reflexivity.
    + intros _. discriminate.
Qed.

(* the sorts of the formats found: a condition is by then an integer *)
Lemma r_sorts : forall cv st l r, Forall (determined cv) l -> Forall (in_pass cv st) l ->
  all_some (map (prec st) (map (with_formats cv) l)) = Some r ->
  joins (map fmt_sort r) = joins (map (sort_of cv) l) \/ (joins (map (sort_of cv) l) = SBool /\ joins (map fmt_sort r) = SInt).
Proof.
  intros cv st l r D. revert r. induction D as [|a l Ha Dl IH]; intros r H E.
  - injection E as <-. left. reflexivity.
  - inversion H; subst. cbn [map all_some] in E. destruct (prec st (with_formats cv a)) as [g|] eqn:Eg; [|discriminate].
    destruct (all_some (map (prec st) (map (with_formats cv) l))) as [r'|] eqn:E'; [|discriminate]. injection E as <-.
    specialize (IH r' H3 eq_refl). unfold joins in *. cbn [map fold_right].
    set (x := fold_right join SBool (map fmt_sort r')) in *. set (y := fold_right join SBool (map (sort_of cv) l)) in *.
    assert (fmt_sort g = sort_of cv a \/ (sort_of cv a = SBool /\ fmt_sort g = SInt)) as G.
    { destruct (is_cst a) eqn:Ec.
      - destruct a as [|i|]; try discriminate. cbn [with_formats] in Eg. rewrite (H2 Ec) in Eg. injection Eg as <-. left. apply abs_class.
      - destruct (all_good cv a Ha Ec) as [S F].
        assert (g = format_of cv a) as -> by (destruct a; [injection Eg as <-; reflexivity|discriminate|injection Eg as <-; reflexivity]).
        destruct (sort_of cv a), (format_of cv a); cbn in *; try discriminate; try (solve [destruct S]); auto. }
    destruct G as [->|[-> ->]], IH as [->|[-> ->]]; auto.
    + destruct (sort_of cv a); cbn; auto.
    + destruct y; cbn; auto.
Qed.

(* ---- constants ---- *)
Lemma set_cst_other : forall f st e i, e <> Cst i -> set_cst f st e i = st i.
Proof.
  intros f st e i H. destruct e as [|j|]; try reflexivity. cbn [set_cst].
  destruct (st j) as [a|]; [|reflexivity]. destruct (is_abstract a); [|reflexivity].
  unfold upd. destruct (Nat.eqb_spec i j); [subst; congruence|reflexivity].
Qed.
Lemma set_csts_other : forall f args st i, ~ In (Cst i) args -> set_csts f args st i = st i.
Proof.
  intros f args. induction args as [|a l IH]; intros st i H; [reflexivity|].
  unfold set_csts. cbn [fold_left]. fold (set_csts f l (set_cst f st a)).
  rewrite IH by (intro K; apply H; right; exact K). apply set_cst_other. intros ->. apply H. left. reflexivity.
Qed.
Lemma set_csts_done : forall g args st i, st i = Some g -> is_abstract g = false -> set_csts (Some g) args st i = Some g.
Proof.
  intros g args. induction args as [|a l IH]; intros st i H Hg; [exact H|].
  unfold set_csts. cbn [fold_left]. fold (set_csts (Some g) l (set_cst (Some g) st a)). apply IH; [|exact Hg].
  destruct a as [|j|]; try exact H. cbn [set_cst]. destruct (st j) as [a|] eqn:E; [|exact H]. destruct (is_abstract a) eqn:Ea; [|exact H].
  unfold upd. destruct (Nat.eqb i j); [reflexivity|exact H].
Qed.
Lemma set_csts_in : forall g args st i a, In (Cst i) args -> st i = Some a -> is_abstract a = true -> is_abstract g = false ->
  set_csts (Some g) args st i = Some g.
Proof.
  intros g args. induction args as [|b l IH]; intros st i a H E Ea Hg; [destruct H|destruct H as [H|H]].
  - subst b. unfold set_csts. cbn [fold_left]. apply set_csts_done; [|exact Hg].
    cbn [set_cst]. rewrite E, Ea. unfold upd. rewrite Nat.eqb_refl. reflexivity.
  - unfold set_csts. cbn [fold_left]. fold (set_csts (Some g) l (set_cst (Some g) st b)).
    destruct (set_cst (Some g) st b i) as [x|] eqn:Ex.
    + destruct b as [|j|]; cbn [set_cst] in Ex; try (apply (IH _ _ a); [exact H|exact E|exact Ea|exact Hg]).
      destruct (Nat.eqb_spec i j) as [<-|N].
      * rewrite E, Ea in Ex. unfold upd in Ex. rewrite Nat.eqb_refl in Ex. injection Ex as <-.
        apply set_csts_done; [|exact Hg]. cbn [set_cst]. rewrite E, Ea. unfold upd. rewrite Nat.eqb_refl. reflexivity.
      * apply (IH _ _ a); auto. rewrite set_cst_other by congruence. exact E.
    + exfalso. destruct b as [|j|]; cbn [set_cst] in Ex; try congruence. destruct (st j) as [y|]; [|congruence].
      destruct (is_abstract y); [|congruence]. unfold upd in Ex. destruct (Nat.eqb i j); congruence.
Qed.

Lemma nodup_direct : forall args a i, NoDup (concat (map csts args)) -> In a args -> is_cst a = false -> In i (csts a) ->
  ~ In (Cst i) args.
Proof.
  intros args a i. induction args as [|b l IH]; intros N Ha Hc Hi Hd; [destruct Ha|].
  cbn [map concat] in N. destruct Ha as [->|Ha], Hd as [->|Hd].
  - discriminate Hc.
  - apply (in_csts i (Cst i) l) in Hd; [|left; reflexivity].
    clear IH. induction (csts a) as [|x xs IHx]; [destruct Hi|]. cbn [app] in N. inversion N; subst.
    destruct Hi as [<-|Hi]; [apply H1; apply in_or_app; right; exact Hd|]. apply IHx; auto.
  - cbn [csts app] in N. inversion N; subst. apply H1. apply (in_csts i a); auto.
  - apply IH; auto. clear - N. induction (csts b) as [|x xs IHx]; [exact N|]. inversion N; auto.
Qed.
Lemma nodup_app_inv : forall (l1 l2 : list nat), NoDup (l1 ++ l2) -> NoDup l1 /\ NoDup l2 /\ (forall i, In i l1 -> ~ In i l2).
Proof.
  induction l1 as [|x l1 IH]; intros l2 H; cbn [app] in H.
  - split; [constructor|split; [exact H|intros i []]].
  - inversion H; subst. destruct (IH l2 H3) as (A & B & C). split; [|split; [exact B|]].
    + constructor; auto. intro K. apply H2. apply in_or_app. auto.
    + intros i [<-|Hi]; [intro K; apply H2; apply in_or_app; auto|apply C; exact Hi].
Qed.
Lemma part_csts : forall o e i, part o e -> In i (csts o) -> In i (csts e).
Proof.
  intros o e i H Hi. induction H; [exact Hi|]. cbn [csts]. apply (in_csts i a); auto.
Qed.

(* ---- second pass ---- *)
Definition settled (cv : nat -> cval) (e : expr) (st : store) : Prop :=
  forall o i g, part o e -> constant_format cv o i g -> st i = Some g.
Definition second_ok (cv : nat -> cval) (e : expr) := forall st, determined cv e -> NoDup (csts e) ->
  (forall i, In i (csts e) -> st i = Some (cst_abstract (cv i))) ->
  exists st', inst_expr (annot cv e) st = Some (with_formats cv e, st') /\
    (forall i, ~ In i (csts e) -> st' i = st i) /\ (is_cst e = true -> st' = st) /\ settled cv e st'.
Lemma constant_in : forall cv o i g, constant_format cv o i g -> In i (csts o).
Proof.
  intros cv [|j|k f itv args] i g H; cbn [constant_format] in H; try destruct H.
  assert (In (Cst i) args) as Hi.
  { destruct k; try destruct H; try assumption. destruct args; [destruct H|right; exact H]. }
  cbn [csts]. apply (in_csts i (Cst i)); auto. left. reflexivity.
Qed.
Lemma ops_filter : forall cv l, ops l (map (format_of cv) l) = map (format_of cv) (filter (fun a => negb (is_cst a)) l).
Proof.
  intros cv l. induction l as [|a l IH]; [reflexivity|]. rewrite ops_cons. cbn [filter]. rewrite IH.
  destruct (is_cst a); reflexivity.
Qed.
Lemma settled_ext : forall cv e st st', settled cv e st -> (forall i, In i (csts e) -> st' i = st i) -> settled cv e st'.
Proof.
  intros cv e st st' H E o i g P Hi. rewrite E; [apply (H o); auto|].
  apply (part_csts o); auto. apply (constant_in cv o i g Hi).
Qed.
Lemma second_list : forall cv args, Forall (second_ok cv) args -> Forall (determined cv) args -> forall st,
  NoDup (concat (map csts args)) -> (forall i, In i (concat (map csts args)) -> st i = Some (cst_abstract (cv i))) ->
  exists st', go inst_expr (map (annot cv) args) st = Some (map (with_formats cv) args, st') /\
    (forall i, ~ In i (concat (map csts args)) -> st' i = st i) /\
    (forall i, In (Cst i) args -> st' i = st i) /\ Forall (fun a => settled cv a st') args.
Proof.
  intros cv args H. induction H as [|a l Ha Hl IH]; intros D st N C.
  - exists st. split; [reflexivity|]. split; [auto|]. split; [auto|constructor].
  - inversion D; subst. cbn [map concat] in *. destruct (nodup_app_inv _ _ N) as (N1 & N2 & N3).
    destruct (Ha st H1 N1) as (s1 & E1 & O1 & K1 & T1); [intros i Hi; apply C; apply in_or_app; auto|].
    destruct (IH H2 s1 N2) as (s2 & E2 & O2 & K2 & T2).
    { intros i Hi. rewrite O1 by (intro K; apply (N3 i K Hi)). apply C. apply in_or_app. auto. }
    exists s2. cbn [go]. rewrite E1, E2. split; [reflexivity|split; [|split]].
    + intros i Hi. rewrite O2, O1; [reflexivity| |]; intro K; apply Hi; apply in_or_app; auto.
    + intros i [->|Hi].
      * rewrite O2; [rewrite K1; reflexivity|]. apply N3. left. reflexivity.
      * rewrite K2 by exact Hi. apply O1. intro K. apply (N3 i K). apply (in_csts i (Cst i)); auto. left. reflexivity.
    + constructor; [|exact T2]. apply (settled_ext cv a s1); [exact T1|]. intros i Hi. apply O2. apply N3. exact Hi.
Qed.
Lemma tl_map : forall (A B : Type) (f : A -> B) l, tl (map f l) = map f (tl l).
Proof. intros A B f []; reflexivity. Qed.
Lemma with_cst : forall cv i args, In (Cst i) (map (with_formats cv) args) <-> In (Cst i) args.
Proof.
  intros cv i args. rewrite in_map_iff. split.
  - intros ([|j|] & E & H); cbn [with_formats] in E; try discriminate. injection E as <-. exact H.
  - intro H. exists (Cst i). split; [reflexivity|exact H].
Qed.
Lemma in_firstn_tl : forall (x : expr) l, In x (firstn 2 (tl l)) -> In x l.
Proof. intros x [|a [|b [|c l]]]; cbn [tl firstn In]; tauto. Qed.

Lemma post_change : forall cv k f args st st' i, post_rule k f (map (with_formats cv) args) st = Some st' -> ~ In (Cst i) args -> st' i = st i.
Proof.
  intros cv k f args st st' i H N. destruct k; cbn [post_rule] in H; try (injection H as <-); try reflexivity.
  - apply set_csts_other. rewrite with_cst. exact N.
  - apply set_csts_other. intro K. apply in_firstn_tl in K. apply with_cst in K. tauto.
  - destruct (merge_format (map (prec st) (map (with_formats cv) args))) as [m|]; [|discriminate]. injection H as <-.
    apply set_csts_other. rewrite with_cst. exact N.
  - apply set_csts_other. rewrite with_cst. exact N.
  - apply set_csts_other. rewrite with_cst. exact N.
Qed.

Lemma second_pass : forall cv e, second_ok cv e.
Proof.
  intro cv. apply expr_rec'.
  - intros f st _ _ _. exists st. split; [reflexivity|]. split; [auto|]. split; [auto|].
    intros o j g P H. inversion P; subst. destruct H.
  - intros i st _ _ _. exists st. split; [reflexivity|]. split; [auto|]. split; [auto|].
    intros o j g P H. inversion P; subst. destruct H.
  - intros k f itv args IH st D N C. pose proof D as D0. cbn [determined] in D. destruct D as (-> & Da & Dk).
    apply fold_all in Da. cbn [csts] in N, C.
    destruct (second_list cv args IH Da st N C) as (s1 & E1 & O1 & K1 & T1).
    assert (Forall (in_pass cv s1) args) as IP.
    { apply Forall_forall. intros a Ha Hc. destruct a as [|i|]; try discriminate. cbn [prec sort_of].
      rewrite K1 by exact Ha. rewrite C by (apply (in_csts i (Cst i)); [exact Ha|left; reflexivity]).
      rewrite Forall_forall in Da. specialize (Da _ Ha). cbn [determined] in Da. destruct (cv i); [reflexivity|reflexivity|destruct Da]. }
    destruct (precs cv s1 args Da IP) as (r & R1 & R2 & R3 & R4 & R5).
    assert (Forall (good cv) args) as G by (apply Forall_forall; intros; apply all_good).
    assert (inst_rule k (Some (abs_of (sort_of cv (Op k None itv args)))) itv (map (prec s1) (map (with_formats cv) args))
       = Some (Some (format_of cv (Op k None itv args)))) as EI.
    { rewrite format_of_op. destruct k; cbn [inst_rule]; unfold merge_ops; try reflexivity.
      - rewrite R1. destruct Dk as [Dk Ds]. pose proof (ops_nonempty cv args Dk) as Ne.
        pose proof (ops_good cv args G Da) as Og. cbn [sort_of] in *.
        destruct (joins (map (sort_of cv) args)) eqn:Ej; cbn [abs_of is_sfloat]; [| |congruence].
        + rewrite (merge_float_spec r _ R2 Ne); [reflexivity|]. intros g Hg. apply (Og g Hg).
        + rewrite (merge_integer_spec r _ R2 Ne); [reflexivity|]. intros g Hg. destruct (Og g Hg) as [A B]. split; auto.
          apply B. congruence.
      - rewrite R1. destruct Dk as [Dk Ds]. pose proof (ops_nonempty cv args Dk) as Ne.
        pose proof (ops_good cv args G Da) as Og. cbn [sort_of] in *.
        destruct (joins (map (sort_of cv) args)) eqn:Ej; cbn [abs_of is_sfloat]; [| |congruence].
        + rewrite (merge_float_spec r _ R2 Ne); [reflexivity|]. intros g Hg. apply (Og g Hg).
        + rewrite (merge_integer_spec r _ R2 Ne); [reflexivity|]. intros g Hg. destruct (Og g Hg) as [A B]. split; auto.
          apply B. congruence.
      - destruct Dk as ((c & a & b & ->) & Dk & Ds). rewrite !tl_map. cbn [tl] in *.
        inversion Da as [|? ? Dc Dab]; inversion IP as [|? ? Pc Pab]; inversion G as [|? ? Gc Gab]; subst.
        destruct (precs cv s1 [a; b] Dab Pab) as (r' & R1' & R2' & R3' & R4' & _).
        rewrite R1'. pose proof (ops_nonempty cv [a; b] Dk) as Ne.
        pose proof (ops_good cv [a; b] Gab Dab) as Og. cbn [sort_of map tl] in *.
        destruct (joins [sort_of cv a; sort_of cv b]) eqn:Ej; cbn [abs_of is_sfloat]; [| |congruence].
        + rewrite (merge_float_spec r' _ R2' Ne); [reflexivity|]. intros g Hg. apply (Og g Hg).
        + rewrite (merge_integer_spec r' _ R2' Ne); [reflexivity|]. intros g Hg. destruct (Og g Hg) as [A B]. split; auto.
          apply B. congruence.
      - rewrite R1. destruct Dk as [Dk Ds]. pose proof (ops_nonempty cv args Dk) as Ne.
        pose proof (ops_good cv args G Da) as Og. cbn [sort_of abs_of is_sfloat].
        rewrite (merge_integer_spec r _ R2 Ne); [reflexivity|]. intros g Hg. destruct (Og g Hg) as [A B]. split; auto.
      - rewrite R1. pose proof (ops_nonempty cv args Dk) as Ne.
        pose proof (ops_good cv args G Da) as Og. cbn [sort_of abs_of is_sfloat].
        rewrite (merge_float_spec r _ R2 Ne); [reflexivity|]. intros g Hg. apply (Og g Hg).
      - destruct Dk. }
    assert (exists s2, post_rule k (Some (format_of cv (Op k None itv args))) (map (with_formats cv) args) s1 = Some s2) as (s2 & E2).
    { destruct k; cbn [post_rule]; eauto. unfold merge_format. rewrite R1.
      assert (exists a, merge_abstract r = Some a) as (a & Ea).
      { unfold merge_abstract. destruct (existsb is_float r) eqn:A; [eauto|]. destruct (existsb is_integer r) eqn:B; [eauto|].
        destruct (existsb is_bool r) eqn:B'; [eauto|]. exfalso. specialize (R5 Dk). destruct r as [|x r]; [congruence|].
        cbn [existsb] in *. apply orb_false_iff in A, B, B'. destruct x; cbn in *; intuition congruence. }
      rewrite Ea. destruct a; eauto.
      assert (forall f, In f r -> is_float f = false) as NF.
      { unfold merge_abstract in Ea. destruct (existsb is_float r) eqn:A; [discriminate|].
        intros g Hg. destruct (is_float g) eqn:B; auto. assert (existsb is_float r = true) by (apply existsb_exists; eauto). congruence. }
      rewrite any_signed_ints; [eauto|]. intros g Hg. apply filter_In in Hg. destruct Hg as [Hg _].
      pose proof Hg as Hg'. rewrite R2 in Hg. split; [apply (ops_good cv args G Da g Hg)|].
      unfold concretes in Hg'. apply filter_In in Hg'. destruct Hg' as [Hg' _]. specialize (NF g Hg').
      destruct g; try reflexivity; discriminate. }
    exists s2. cbn [annot inst_expr]. rewrite E1.
    assert (is_abstract (abs_of (sort_of cv (Op k None itv args))) = true) as Eb by (destruct (sort_of cv (Op k None itv args)); reflexivity).
    rewrite Eb, EI, E2. split; [reflexivity|]. cbn [csts is_cst]. split; [|split; [discriminate|]].
    + intros i Hi. rewrite (post_change cv k _ args s1 s2 i E2); [apply O1; exact Hi|].
      intro K. apply Hi. apply (in_csts i (Cst i)); auto. left. reflexivity.
    + intros o i g P Hi.
      assert (forall a, In a args -> part o a -> s2 i = Some g) as Hsub.
      { intros a Ha Pa. pose proof (constant_in cv o i g Hi) as Io.
        assert (In i (csts a)) as Ia by (apply (part_csts o); auto).
        assert (is_cst a = false) as Ca by (destruct a as [|j|]; [reflexivity|inversion Pa; subst; destruct Hi|reflexivity]).
        rewrite (post_change cv k _ args s1 s2 i E2); [|apply (nodup_direct args a i N Ha Ca Ia)].
        rewrite Forall_forall in T1. apply (T1 a Ha o); auto. }
      inversion P as [|? ? ? ? a H1 H2]; subst; [|apply (Hsub a); auto]. clear Hsub P.
      assert (is_abstract (format_of cv (Op k None itv args)) = false) as Ef.
      { apply supported_concrete. apply (all_good cv (Op k None itv args) D0). reflexivity. }
      assert (forall j, In (Cst j) args -> exists a, s1 j = Some a /\ is_abstract a = true) as Ab.
      { intros j Hj. exists (cst_abstract (cv j)). split.
        - rewrite K1 by exact Hj. apply C. apply (in_csts j (Cst j)); auto. left. reflexivity.
        - rewrite Forall_forall in Da. specialize (Da _ Hj). cbn [determined] in Da. destruct (cv j); [reflexivity|reflexivity|destruct Da]. }
      destruct k; cbn [constant_format] in Hi; try (solve [destruct Hi]); cbn [post_rule] in E2.
      * destruct Hi as [Hi ->]. injection E2 as <-. destruct (Ab i Hi) as (a & A1 & A2).
        apply (set_csts_in _ _ _ _ a); auto. apply with_cst. exact Hi.
      * destruct Hi as [Hi ->]. injection E2 as <-. destruct Dk as ((c & x & y & ->) & _). cbn [tl] in Hi.
        destruct (Ab i) as (a & A1 & A2); [right; exact Hi|].
        apply (set_csts_in _ _ _ _ a); auto. cbn [map tl firstn]. apply (with_cst cv i [x; y]). exact Hi.
      * destruct Hi as (Hi & Ne & L16 & Js & ->). destruct (Ab i Hi) as (a & A1 & A2).
        rewrite <- ops_filter in *. pose proof (ops_good cv args G Da) as Og.
        set (l := ops args (map (format_of cv) args)) in *.
        assert (merge_format (map (prec s1) (map (with_formats cv) args)) = Some (Some (merged (is_sfloat (joins (map (sort_of cv) args))) l))) as MF.
        { unfold merge_format. rewrite R1.
          assert (merge_abstract r = Some (abs_of (joins (map (sort_of cv) args)))) as ->.
          { destruct (r_sorts cv s1 args r Da IP R1) as [E|[E _]]; [|congruence]. rewrite <- E in *. apply merge_abstract_sort. exact Js. }
          unfold max_bits. rewrite R2. fold (largest l).
          destruct (joins (map (sort_of cv) args)) eqn:Ej; cbn [abs_of is_sfloat]; [| |congruence].
          - assert (largest l = 16 \/ largest l = 32 \/ largest l = 64) as L.
            { apply (merged_supported true l Ne). intros f Hf. split; [apply (Og f Hf)|discriminate]. }
            unfold merged. destruct L as [L|[L|L]]; [congruence| |]; rewrite L; reflexivity.
          - assert (forall f, In f l -> supported f /\ is_ffp f = false) as Hl.
            { intros f Hf. destruct (Og f Hf) as [A B]. split; auto. apply B. congruence. }
            assert (filter (fun f => negb (is_vector f)) l = l) as Fv.
            { clear - Hl. induction l as [|x l IH]; [reflexivity|]. cbn [filter].
              destruct (Hl x (or_introl eq_refl)) as [S _]. rewrite IH by (intros; apply Hl; right; auto).
              destruct x; try reflexivity; destruct S. }
            rewrite Fv, any_signed_ints by exact Hl.
            assert (largest l = 32 \/ largest l = 64) as L.
            { apply (merged_supported false l Ne). intros f Hf. split; [apply (Hl f Hf)|intro; apply (Hl f Hf)]. }
            unfold merged. destruct L as [L|L]; rewrite L; reflexivity. }
        rewrite MF in E2. injection E2 as <-. apply (set_csts_in _ _ _ _ a); auto; [apply with_cst; exact Hi|].
        apply supported_concrete. apply merged_supported; [exact Ne|]. intros f Hf. destruct (Og f Hf) as [A B]. split; auto.
        intro K. apply B. apply sfloat_not. exact K.
      * destruct Hi as [Hi ->]. injection E2 as <-. destruct (Ab i Hi) as (a & A1 & A2).
        apply (set_csts_in _ _ _ _ a); auto. apply with_cst. exact Hi.
Qed.
