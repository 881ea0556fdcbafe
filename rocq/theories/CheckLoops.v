(** Test tables, test loops, maximal error loops. *)

Require Import ZArith QArith Qabs List Bool Lia Lqa PeanoNat.
From Verif Require Import QUtil FpFormatModel FpFormatSpec SpecialModel
  SpecialSpec CheckModel CheckSpec CheckProofs CheckAccept CheckDegraded.
Import ListNotations.
Open Scope Z_scope.

(** ** Test tables *)

Section Tables.
  Variable X : Type.
  Variable round_case : X -> X.
  Variable random : nat -> X.
  Variable emulate : X -> fpv.

  Local Notation rows := (test_rows X round_case random emulate).

  Lemma padding_lt : forall t vs, (0 < vs)%nat -> (padding t vs < vs)%nat.
  Proof. intros t vs H. unfold padding. apply Nat.mod_upper_bound. lia. Qed.

  Lemma padding_multiple : forall t vs, (0 < vs)%nat ->
    Nat.modulo (t + padding t vs) vs = 0%nat.
  Proof.
    intros t vs H. unfold padding. pose proof (Nat.mod_upper_bound t vs ltac:(lia)) as B.
    rewrite Nat.add_mod_idemp_r by lia.
    rewrite <- Nat.add_mod_idemp_l by lia.
    replace (Nat.modulo t vs + (vs - Nat.modulo t vs))%nat with vs by lia.
    apply Nat.mod_same. lia.
  Qed.

  (** the announced size is the number of rows, a multiple of the vector
      size, with less than one vector of added tests *)
  Theorem test_rows_size : forall num vs (auto : bool)
    (std value : list (test_case X)),
    (0 < vs)%nat ->
    let given := (if auto then std else []) ++ value in
    let n := fst (rows num vs auto std value) in
    length (snd (rows num vs auto std value)) = n
    /\ Nat.modulo n vs = 0%nat
    /\ (num + length given <= n < num + length given + vs)%nat.
  Proof.
    intros num vs auto std value H given n. unfold n, test_rows. cbn [fst snd].
    fold given. pose proof (padding_lt (num + length given) vs H) as P.
    pose proof (padding_multiple (num + length given) vs H) as M.
    rewrite map_length, app_length, !map_length, seq_length.
    clear n. clearbody given. unfold test_case in *.
    split; [lia|]. split; [exact M | lia].
  Qed.

  (** every given case is tested, with its forced result if any *)
  Theorem test_rows_given : forall num vs (auto : bool)
    (std value : list (test_case X)) i x ex,
    nth_error ((if auto then std else []) ++ value) i = Some (x, ex) ->
    nth_error (snd (rows num vs auto std value)) i
    = Some (round_case x, match ex with Some v => v | None => emulate (round_case x) end).
  Proof.
    intros num vs auto std value i x ex H. unfold test_rows. cbn [snd].
    set (given := (if auto then std else []) ++ value) in *.
    assert (L : (i < length given)%nat) by (apply nth_error_Some; congruence).
    rewrite map_app. rewrite nth_error_app1 by (rewrite !map_length; exact L).
    rewrite map_map. erewrite map_nth_error; [|exact H]. reflexivity.
  Qed.
End Tables.

(** ** Test loops *)

Lemma scalar_test_spec : forall fuel n fails i,
  0 <= i -> (Z.to_nat (n - i) < fuel)%nat ->
  (forall j, i <= j < n -> exists b, fails j = Some b) ->
  (scalar_test fuel false 1 n fails i = Some 0
   /\ forall j, i <= j < n -> fails j = Some false)
  \/ (scalar_test fuel false 1 n fails i = Some 1
      /\ exists j, i <= j < n /\ fails j = Some true).
Proof.
  induction fuel as [|fuel IH]; intros n fails i Hi Hf Hd; [lia|].
  cbn [scalar_test]. destruct (Z.ltb_spec i n) as [L|L].
  - destruct (Hd i ltac:(lia)) as ([|] & E); rewrite E.
    + right. split; [reflexivity|]. exists i. split; [lia | exact E].
    + destruct (IH n fails (i + 1)) as [[A B]|[A (j & B & C)]]; try lia.
      * intros j Hj. apply Hd. lia.
      * left. split; [exact A|]. intros j Hj.
        destruct (Z.eq_dec j i) as [->|]; [exact E | apply B; lia].
      * right. split; [exact A|]. exists j. split; [lia | exact C].
  - left. split; [reflexivity | intros; lia].
Qed.

Lemma lanes_spec : forall vs k fails i,
  (forall j, (k <= j < k + vs)%nat -> exists b, fails (i + Z.of_nat j) = Some b) ->
  (lanes_pass (seq k vs) fails i = Some true
   /\ forall j, (k <= j < k + vs)%nat -> fails (i + Z.of_nat j) = Some false)
  \/ (lanes_pass (seq k vs) fails i = Some false
      /\ exists j, (k <= j < k + vs)%nat /\ fails (i + Z.of_nat j) = Some true).
Proof.
  induction vs as [|vs IH]; intros k fails i Hd; cbn [seq lanes_pass].
  - left. split; [reflexivity | intros; lia].
  - destruct (Hd k ltac:(lia)) as ([|] & E); rewrite E.
    + right. split; [reflexivity|]. exists k. split; [lia | exact E].
    + destruct (IH (S k) fails i) as [[A B]|[A (j & B & C)]].
      * intros j Hj. apply Hd. lia.
      * left. split; [exact A|]. intros j Hj.
        destruct (Nat.eq_dec j k) as [->|]; [exact E | apply B; lia].
      * right. split; [exact A|]. exists j. split; [lia | exact C].
Qed.

Lemma vector_test_spec : forall fuel vs m fails i,
  (0 < vs)%nat -> 0 <= i -> (m < fuel)%nat ->
  let n := i + Z.of_nat (m * vs) in
  (forall j, i <= j < n -> exists b, fails j = Some b) ->
  (vector_test fuel vs n fails i = Some 0
   /\ forall j, i <= j < n -> fails j = Some false)
  \/ (vector_test fuel vs n fails i = Some 1
      /\ exists j, i <= j < n /\ fails j = Some true).
Proof.
  induction fuel as [|fuel IH]; intros vs m fails i Hv Hi Hf n Hd; [lia|].
  cbn [vector_test]. destruct (Z.ltb_spec i n) as [L|L].
  - destruct m as [|m]; [unfold n in L; cbn in L; lia|].
    assert (En : n = i + Z.of_nat vs + Z.of_nat (m * vs)).
    { unfold n. rewrite Nat.mul_succ_l. lia. }
    destruct (lanes_spec vs 0 fails i) as [[A B]|[A (j & B & C)]].
    + intros j Hj. apply Hd. lia.
    + rewrite A. rewrite En.
      destruct (IH vs m fails (i + Z.of_nat vs)) as [[P Q]|[P (j & Q & R)]]; try lia.
      * intros j Hj. apply Hd. lia.
      * left. split; [exact P|]. intros j Hj.
        destruct (Z.lt_ge_cases j (i + Z.of_nat vs)) as [C|C]; [|apply Q; lia].
        replace j with (i + Z.of_nat (Z.to_nat (j - i))) by lia. apply B. lia.
      * right. split; [exact P|]. exists j. split; [lia | exact R].
    + rewrite A. right. split; [reflexivity|]. exists (i + Z.of_nat j). split; [lia | exact C].
  - left. split; [reflexivity | intros; lia].
Qed.

(** the test returns 0 exactly when no row fails, else 1 *)
Theorem test_wrapper_result : forall vs n fails,
  (0 < vs)%nat -> Nat.modulo n vs = 0%nat ->
  (forall j, 0 <= j < Z.of_nat n -> exists b, fails j = Some b) ->
  (test_wrapper false vs n fails = Some 0
   /\ forall j, 0 <= j < Z.of_nat n -> fails j = Some false)
  \/ (test_wrapper false vs n fails = Some 1
      /\ exists j, 0 <= j < Z.of_nat n /\ fails j = Some true).
Proof.
  intros vs n fails Hv Hm Hd. unfold test_wrapper.
  destruct (Nat.ltb_spec 1 vs) as [L|L].
  - assert (En : n = (n / vs * vs)%nat).
    { pose proof (Nat.div_mod n vs ltac:(lia)). lia. }
    pose proof (vector_test_spec (S n) vs (n / vs) fails 0 Hv ltac:(lia)) as V.
    cbv zeta in V. rewrite <- En in V. rewrite Z.add_0_l in V. apply V; [|exact Hd].
    assert (n / vs <= n)%nat by (apply Nat.div_le_upper_bound; nia). lia.
  - assert (vs = 1%nat) as -> by lia. apply scalar_test_spec; [lia | lia | exact Hd].
Qed.

Lemma break_error_loop : forall fuel n fails i,
  (Z.to_nat (n - i) < fuel)%nat ->
  (forall j, i <= j < n -> exists b, fails j = Some b) ->
  scalar_test fuel true 1 n fails i = Some 0.
Proof.
  induction fuel as [|fuel IH]; intros n fails i Hf Hd; [lia|].
  cbn [scalar_test]. destruct (Z.ltb_spec i n) as [L|L]; [|reflexivity].
  destruct (Hd i ltac:(lia)) as ([|] & E); rewrite E; apply IH; try lia;
    intros j Hj; apply Hd; lia.
Qed.

(** with the break_error option the scalar test always succeeds *)
Theorem break_error_refuted : forall n fails,
  (forall j, 0 <= j < Z.of_nat n -> exists b, fails j = Some b) ->
  test_wrapper true 1 n fails = Some 0.
Proof.
  intros n fails Hd. unfold test_wrapper. cbn [Nat.ltb Nat.leb].
  apply break_error_loop; [lia | exact Hd].
Qed.

(** ** The whole test: table and loop *)

Definition stored_rows (F : fpfmt) (a : accuracy) {X} (rows : list (X * fpv))
  : list (option (list datum)) :=
  map (fun r => all_cst F (check_values F a (snd r))) rows.

Fixpoint all_some {A} (l : list (option A)) : option (list A) :=
  match l with
  | [] => Some []
  | None :: _ => None
  | Some x :: r => match all_some r with Some y => Some (x :: y) | None => None end
  end.

Lemma all_some_nth : forall A (l : list (option A)) l' i,
  all_some l = Some l' ->
  nth_error l i = match nth_error l' i with Some x => Some (Some x) | None => None end.
Proof.
  induction l as [|[x|] l IH]; intros l' i H; cbn in H; try discriminate.
  - injection H as <-. destruct i; reflexivity.
  - destruct (all_some l) as [y|] eqn:E; [|discriminate]. injection H as <-.
    destruct i; cbn; [reflexivity | apply IH; reflexivity].
Qed.

Lemma all_some_length : forall A (l : list (option A)) l',
  all_some l = Some l' -> length l' = length l.
Proof.
  induction l as [|[x|] l IH]; intros l' H; cbn in H; try discriminate.
  - injection H as <-. reflexivity.
  - destruct (all_some l) as [y|] eqn:E; [|discriminate]. injection H as <-.
    cbn. f_equal. apply IH. reflexivity.
Qed.

Theorem test_suite_passes_iff : forall F a X (fct : X -> datum) (rows : list (X * fpv))
  outputs vs,
  (0 < vs)%nat -> Nat.modulo (length rows) vs = 0%nat ->
  all_some (stored_rows F a rows) = Some outputs ->
  (test_wrapper false vs (length rows) (row_fails a fct (map fst rows) outputs) = Some 0
   <-> forall x v, In (x, v) rows -> accepts F a v (fct x) = Some true).
Proof.
  intros F a X fct rows outputs vs Hv Hm Hs.
  assert (Row : forall i x v, nth_error rows i = Some (x, v) ->
    row_fails a fct (map fst rows) outputs (Z.of_nat i)
    = match accepts F a v (fct x) with Some b => Some (negb b) | None => None end).
  { intros i x v H. unfold row_fails.
    destruct (Z.ltb_spec (Z.of_nat i) 0) as [C|C]; [lia|]. rewrite Nat2Z.id.
    rewrite (map_nth_error fst i rows H). cbn [fst].
    pose proof (all_some_nth _ _ _ i Hs) as N. unfold stored_rows in N.
    rewrite (map_nth_error _ i rows H) in N. cbn [snd] in N.
    destruct (nth_error outputs i) as [o|]; [|discriminate].
    injection N as N. unfold accepts. rewrite N.
    destruct (failure_test a (fct x) o) as [b|]; [rewrite negb_involutive|]; reflexivity. }
  assert (Len : forall v, In v (map snd rows) -> exists o, all_cst F (check_values F a v) = Some o).
  { intros v Hv'. apply in_map_iff in Hv' as ((x & v') & E & I). cbn in E. subst v'.
    apply In_nth_error in I as (i & I). pose proof (all_some_nth _ _ _ i Hs) as N.
    unfold stored_rows in N. rewrite (map_nth_error _ i rows I) in N. cbn [snd] in N.
    destruct (nth_error outputs i) as [o|]; [|discriminate]. injection N as N. eauto. }
  assert (Two : forall v o, all_cst F (check_values F a v) = Some o ->
    forall r, exists b, failure_test a r o = Some b).
  { intros v o H r.
    assert (L : forall l o', all_cst F l = Some o' -> length o' = length l).
    { induction l as [|y l IH]; intros o' E; cbn in E; [injection E as <-; reflexivity|].
      destruct (c_cst F y); [|discriminate]. destruct (all_cst F l); [|discriminate].
      injection E as <-. cbn. f_equal. apply IH. reflexivity. }
    apply L in H.
    destruct a as [| |g|g].
    1: assert (E : length (check_values F CorrectlyRounded v) = 1%nat)
         by (destruct v; reflexivity).
    2: assert (E : length (check_values F Faithful v) = 2%nat) by (destruct v; reflexivity).
    3: assert (E : length (check_values F (DegradedAbsolute g) v) = 2%nat)
         by (destruct v; cbn [check_values]; try reflexivity;
             destruct (degraded_bounds F (DegradedAbsolute g) q); reflexivity).
    4: assert (E : length (check_values F (DegradedRelative g) v) = 2%nat)
         by (destruct v; cbn [check_values]; try reflexivity;
             destruct (degraded_bounds F (DegradedRelative g) q); reflexivity).
    all: rewrite E in H; destruct o as [|o1 [|o2 [|o3 o]]]; try discriminate;
      cbn; eexists; reflexivity. }
  assert (Dec : forall x v, In (x, v) rows -> exists b, accepts F a v (fct x) = Some b).
  { intros x v I. destruct (Len v) as (o & Ho).
    { apply in_map_iff. exists (x, v). auto. }
    unfold accepts. rewrite Ho. destruct (Two v o Ho (fct x)) as (b & ->). eauto. }
  pose proof (test_wrapper_result vs (length rows)
    (row_fails a fct (map fst rows) outputs) Hv Hm) as TW.
  assert (RowJ : forall j, 0 <= j < Z.of_nat (length rows) ->
    exists x v, nth_error rows (Z.to_nat j) = Some (x, v)).
  { intros j Hj. destruct (nth_error rows (Z.to_nat j)) as [[x v]|] eqn:E; [eauto|].
    apply nth_error_None in E. lia. }
  destruct TW as [[A B]|[A (j & Hj & B)]].
  - intros j Hj. destruct (RowJ j Hj) as (x & v & E).
    pose proof (Row _ x v E) as R. rewrite Z2Nat.id in R by lia. rewrite R.
    destruct (Dec x v) as (b & ->); [eapply nth_error_In; exact E | eauto].
  - split; [|intros _; exact A]. intros _ x v I.
    destruct (Dec x v I) as (b & Eb). rewrite Eb. f_equal.
    apply In_nth_error in I as (i & Ei). pose proof (Row i x v Ei) as R.
    rewrite Eb in R. rewrite B in R.
    + injection R as R. destruct b; [reflexivity | discriminate].
    + assert (i < length rows)%nat by (apply nth_error_Some; congruence). lia.
  - split; [intros C; rewrite A in C; discriminate|]. intros H. exfalso.
    destruct (RowJ j Hj) as (x & v & E).
    pose proof (Row _ x v E) as R. rewrite Z2Nat.id in R by lia. rewrite B in R.
    rewrite (H x v) in R by (eapply nth_error_In; exact E). discriminate.
Qed.

(** ** Maximal error *)

Lemma c_gt_trans : forall a b c, c_gt b a = true -> c_gt c a = false -> c_gt c b = false.
Proof.
  intros a b c. unfold c_gt.
  destruct a as [|[|]|s|p], b as [|[|]|t|q], c as [|[|]|u|r]; cbn [ieee_cmp Bool.eqb];
    try discriminate; try reflexivity; try congruence;
    repeat match goal with |- context [Qcompare ?a ?b] => destruct (Qcompare_spec a b) end;
    try discriminate; try reflexivity; try congruence; intros; exfalso; lra.
Qed.

Lemma c_gt_irrefl : forall a, c_gt a a = false.
Proof.
  intros [|[|]|s|p]; unfold c_gt; cbn [ieee_cmp Bool.eqb]; try reflexivity.
  rewrite (proj1 (Qeq_alt p p) (Qeq_refl p)). reflexivity.
Qed.

Lemma c_gt_trans2 : forall a b c, c_gt b a = true -> c_gt a c = true -> c_gt b c = true.
Proof.
  intros a b c. unfold c_gt.
  destruct a as [|[|]|s|p], b as [|[|]|t|q], c as [|[|]|u|r]; cbn [ieee_cmp Bool.eqb];
    try discriminate; try reflexivity; try congruence;
    repeat match goal with |- context [Qcompare ?a ?b] => destruct (Qcompare_spec a b) end;
    try discriminate; try reflexivity; try congruence; intros; exfalso; lra.
Qed.

(** state after the first [i] rows, all valid *)
Definition max_inv (rows : list error_row) (i : nat) (st : max_state) : Prop :=
  m_valid st = true
  /\ (forall k r, (k < i)%nat -> nth_error rows k = Some r ->
        c_gt (rel_err r) (m_rel st) = false /\ c_gt (abs_err r) (m_abs st) = false)
  /\ ((m_rel st = minus_one /\ m_index st = -1)
      \/ exists k r, (k < i)%nat /\ nth_error rows k = Some r /\ m_index st = Z.of_nat k
         /\ m_rel st = rel_err r /\ c_gt (m_rel st) minus_one = true
         /\ forall k' r', (k' < k)%nat -> nth_error rows k' = Some r' ->
              rel_err r' = DNaN \/ c_gt (m_rel st) (rel_err r') = true)
  /\ (m_abs st = minus_one
      \/ exists k r, (k < i)%nat /\ nth_error rows k = Some r /\ m_abs st = abs_err r).

Lemma c_gt_false_cases : forall a m x, c_gt x m = true -> c_gt a m = false ->
  a = DNaN \/ c_gt x a = true.
Proof.
  intros a m x. unfold c_gt.
  destruct a as [|[|]|s|p], m as [|[|]|t|q], x as [|[|]|u|r]; cbn [ieee_cmp Bool.eqb];
    try discriminate; try (left; reflexivity); try (right; reflexivity); try congruence;
    repeat match goal with |- context [Qcompare ?a ?b] => destruct (Qcompare_spec a b) end;
    intros; try discriminate; try (right; reflexivity); try congruence; exfalso; lra.
Qed.

Lemma max_step_inv : forall rows i st r,
  nth_error rows i = Some r -> valid r = true ->
  max_inv rows i st -> max_inv rows (S i) (max_step st (Z.of_nat i) r).
Proof.
  intros rows i st r Hr Hv (I1 & I2 & I3 & I4). unfold max_step, max_inv. cbv zeta.
  rewrite Hv, I1. cbn [andb negb m_valid m_rel m_abs m_index].
  rewrite andb_true_r, orb_false_r.
  split; [reflexivity|].
  assert (Prev : forall k r', (k < S i)%nat -> nth_error rows k = Some r' ->
    r' = r \/ (k < i)%nat).
  { intros k r' Hk E. destruct (Nat.eq_dec k i) as [->|]; [left; congruence | right; lia]. }
  split; [|split].
  - intros k r' Hk E. destruct (Prev k r' Hk E) as [-> |Hk'].
    + destruct (c_gt (rel_err r) (m_rel st)) eqn:G1, (c_gt (abs_err r) (m_abs st)) eqn:G2;
        auto using c_gt_irrefl.
    + destruct (I2 k r' Hk' E) as [J1 J2].
      destruct (c_gt (rel_err r) (m_rel st)) eqn:G1, (c_gt (abs_err r) (m_abs st)) eqn:G2;
        split; try assumption; eapply c_gt_trans; eassumption.
  - destruct (c_gt (rel_err r) (m_rel st)) eqn:G1.
    + right. exists i, r. split; [lia|]. split; [exact Hr|]. split; [reflexivity|].
      split; [reflexivity|]. split.
      * destruct I3 as [[E _]|(k & r' & _ & _ & _ & E & G & _)].
        -- rewrite E in G1. exact G1.
        -- eapply c_gt_trans2; [exact G1 | exact G].
      * intros k' r' Hk' E. destruct (I2 k' r' Hk' E) as [J1 _].
        eapply c_gt_false_cases; eassumption.
    + destruct I3 as [[E1 E2]|(k & r' & A & B & C & D & G & H)]; [left; auto|].
      right. exists k, r'. split; [lia|]. repeat split; assumption.
  - destruct (c_gt (abs_err r) (m_abs st)) eqn:G2.
    + right. exists i, r. split; [lia|]. auto.
    + destruct I4 as [E|(k & r' & A & B & C)]; [left; exact E|].
      right. exists k, r'. split; [lia|]. auto.
Qed.

Lemma max_loop_inv : forall m i fuel rows st,
  length rows = (i + m)%nat -> (m < fuel)%nat ->
  Forall (fun r => valid r = true) rows ->
  max_inv rows i st ->
  exists st', max_loop fuel (Z.of_nat (length rows)) rows (Z.of_nat i) st = Some st'
    /\ max_inv rows (length rows) st'.
Proof.
  induction m as [|m IH]; intros i fuel rows st L Hf Hv I; destruct fuel as [|fuel]; try lia;
    cbn [max_loop].
  - destruct (Z.ltb_spec (Z.of_nat i) (Z.of_nat (length rows))) as [C|C]; [lia|].
    exists st. split; [reflexivity|]. replace (length rows) with i by lia. exact I.
  - destruct (Z.ltb_spec (Z.of_nat i) (Z.of_nat (length rows))) as [C|C]; [|lia].
    rewrite Nat2Z.id. destruct (nth_error rows i) as [r|] eqn:E;
      [|apply nth_error_None in E; lia].
    replace (Z.of_nat i + 1) with (Z.of_nat (S i)) by lia.
    apply IH; try lia; try assumption. apply max_step_inv; try assumption.
    rewrite Forall_forall in Hv. apply Hv. eapply nth_error_In. exact E.
Qed.

(** no mismatch of NaNs: the returned relative error is the largest one, the
    printed argument is the first where it is reached *)
Theorem scalar_max_error_correct : forall X (inputs : list X) rows,
  length inputs = length rows ->
  Forall (fun r => valid r = true) rows ->
  (exists r, In r rows /\ c_gt (rel_err r) minus_one = true) ->
  exists k r x st,
    nth_error rows k = Some r /\ nth_error inputs k = Some x
    /\ scalar_max_error inputs rows = Some (rel_err r, Some x, st)
    /\ (forall r', In r' rows -> c_gt (rel_err r') (rel_err r) = false)
    /\ (forall k' r', (k' < k)%nat -> nth_error rows k' = Some r' ->
          rel_err r' = DNaN \/ c_gt (rel_err r) (rel_err r') = true)
    /\ (forall r', In r' rows -> c_gt (abs_err r') (m_abs st) = false)
    /\ (m_abs st = minus_one \/ exists r', In r' rows /\ m_abs st = abs_err r').
Proof.
  intros X inputs rows L Hv (r0 & I0 & G0).
  destruct (max_loop_inv (length rows) 0 (S (length rows)) rows max_init) as
    (st & E & (J1 & J2 & J3 & J4)); try lia; try assumption.
  { split; [reflexivity|]. split; [intros; lia|].
    split; [left; split; reflexivity | left; reflexivity]. }
  assert (All : forall r', In r' rows ->
    c_gt (rel_err r') (m_rel st) = false /\ c_gt (abs_err r') (m_abs st) = false).
  { intros r' H. apply In_nth_error in H as (k & H). apply (J2 k r'); [|exact H].
    apply nth_error_Some. congruence. }
  destruct J3 as [[E1 E2]|(k & r & A & B & C & D & G & H)].
  { destruct (All r0 I0) as [N _]. rewrite E1 in N. congruence. }
  destruct (nth_error inputs k) as [x|] eqn:Ex; [|apply nth_error_None in Ex; lia].
  exists k, r, x, st. split; [exact B|]. split; [exact Ex|]. split.
  { unfold scalar_max_error. cbv zeta. change 0 with (Z.of_nat 0).
    rewrite E, J1, C. destruct (Z.ltb_spec (Z.of_nat k) (Z.of_nat 0)); [lia|].
    rewrite Nat2Z.id, Ex, D. reflexivity. }
  rewrite <- D. split; [intros r' I; apply All; exact I|]. split; [exact H|].
  split; [intros r' I; apply All; exact I|].
  destruct J4 as [|(k' & r' & _ & J & J')]; [auto|].
  right. exists r'. split; [eapply nth_error_In; exact J | exact J'].
Qed.

Lemma max_loop_some : forall m i fuel rows st,
  length rows = (i + m)%nat -> (m < fuel)%nat ->
  exists st', max_loop fuel (Z.of_nat (length rows)) rows (Z.of_nat i) st = Some st'
    /\ (m_valid st' = true <-> m_valid st = true
        /\ forall k r, (i <= k)%nat -> nth_error rows k = Some r -> valid r = true).
Proof.
  induction m as [|m IH]; intros i fuel rows st L Hf; destruct fuel as [|fuel]; try lia;
    cbn [max_loop].
  - destruct (Z.ltb_spec (Z.of_nat i) (Z.of_nat (length rows))) as [C|C]; [lia|].
    exists st. split; [reflexivity|]. split; [|tauto]. intros H. split; [exact H|].
    intros k r Hk E. assert (k < length rows)%nat by (apply nth_error_Some; congruence). lia.
  - destruct (Z.ltb_spec (Z.of_nat i) (Z.of_nat (length rows))) as [C|C]; [|lia].
    rewrite Nat2Z.id. destruct (nth_error rows i) as [r|] eqn:E;
      [|apply nth_error_None in E; lia].
    replace (Z.of_nat i + 1) with (Z.of_nat (S i)) by lia.
    destruct (IH (S i) fuel rows (max_step st (Z.of_nat i) r)) as (st' & E' & V); try lia.
    exists st'. split; [exact E'|]. rewrite V. unfold max_step. cbn [m_valid].
    rewrite andb_true_iff. split.
    + intros [[V1 V2] V3]. split; [exact V1|]. intros k r' Hk Er.
      destruct (Nat.eq_dec k i) as [->|]; [congruence | apply (V3 k r'); [lia | exact Er]].
    + intros [V1 V2]. split; [split; [exact V1 | apply (V2 i r); [lia | exact E]]|].
      intros k r' Hk Er. apply (V2 k r'); [lia | exact Er].
Qed.

(** a NaN instead of a number, or a number instead of a NaN: -2 *)
Theorem scalar_max_error_invalid : forall X (inputs : list X) rows,
  (exists r, In r rows /\ valid r = false) ->
  exists x st, scalar_max_error inputs rows = Some (minus_two, x, st).
Proof.
  intros X inputs rows (r & I & V).
  destruct (max_loop_some (length rows) 0 (S (length rows)) rows max_init) as (st & E & W);
    try lia.
  unfold scalar_max_error. cbv zeta. change 0 with (Z.of_nat 0) at 1. rewrite E.
  destruct (m_valid st) eqn:M; [|eauto].
  destruct W as [W _]. destruct (W eq_refl) as [_ W']. apply In_nth_error in I as (k & I).
  rewrite (W' k r ltac:(lia) I) in V. discriminate.
Qed.

(** no comparable relative error: the final message reads the table of
    arguments at index -1 *)
Theorem max_error_index_refuted : forall X (inputs : list X) rows,
  Forall (fun r => valid r = true /\ rel_err r = DNaN) rows ->
  exists st, scalar_max_error inputs rows = Some (minus_one, None, st).
Proof.
  intros X inputs rows H.
  destruct (max_loop_inv (length rows) 0 (S (length rows)) rows max_init) as
    (st & E & (J1 & J2 & J3 & J4)); try lia; try assumption.
  { eapply Forall_impl; [|exact H]. intros r [A _]. exact A. }
  { split; [reflexivity|]. split; [intros; lia|].
    split; [left; split; reflexivity | left; reflexivity]. }
  destruct J3 as [[E1 E2]|(k & r & A & B & C & D & G & _)].
  - exists st. unfold scalar_max_error. cbv zeta. change 0 with (Z.of_nat 0) at 1.
    rewrite E, J1, E1, E2. reflexivity.
  - exfalso. rewrite Forall_forall in H. destruct (H r) as [_ N].
    { eapply nth_error_In. exact B. }
    rewrite D, N in G. discriminate.
Qed.

(** ** Error of one row *)

(** a row is valid exactly when the result and the expected value are both NaN
    or both not *)
Theorem error_valid_iff : forall r e, error_valid r e = true <-> (r = DNaN <-> e = DNaN).
Proof.
  intros r e. destruct r, e; cbn; split; intros H; try reflexivity; try discriminate;
    try (split; intros K; discriminate K); try (split; reflexivity);
    destruct H as [H1 H2]; try (specialize (H1 eq_refl); discriminate);
    try (specialize (H2 eq_refl); discriminate).
Qed.

(** an infinite result for a finite expected value is valid and has a NaN
    relative error, which the maximum ignores *)
Theorem infinite_result_ignored_refuted : forall rnd s ex st i ab,
  finite ex -> m_valid st = true ->
  error_valid (DInf s) ex = true
  /\ let row := mkerr (cr_error rnd true (DInf s) ex) ab (error_valid (DInf s) ex) in
     m_rel (max_step st i row) = m_rel st
     /\ m_index (max_step st i row) = m_index st
     /\ m_valid (max_step st i row) = true.
Proof.
  intros rnd s ex st i ab He Hv.
  assert (V : error_valid (DInf s) ex = true) by (destruct ex; try contradiction; reflexivity).
  split; [exact V|]. cbv zeta. rewrite V.
  assert (N : cr_error rnd true (DInf s) ex = DNaN).
  { destruct ex as [|t|t|q]; try contradiction; destruct s; reflexivity. }
  rewrite N. unfold max_step. rewrite Hv. cbn. auto.
Qed.

(** the relative error is taken over the result: with exact operations, a
    result above the expected value never reports an error of one or more *)
Theorem relative_error_over_result_refuted : forall k ex,
  (0 < ex)%Q -> (1 < k)%Q ->
  let r := (k * ex)%Q in
  exists d, cr_error (fun q => DFin q) true (DFin r) (DFin ex) = DFin d
    /\ (d == 1 - 1 / k)%Q /\ (d < 1)%Q
    /\ (Qabs (r - ex) / ex == k - 1)%Q.
Proof.
  intros k ex He Hk r.
  assert (Hr : (0 < r - ex)%Q) by (unfold r; nra).
  assert (Hr' : (0 < r)%Q) by lra.
  unfold cr_error, f_sub, ieee_sub. cbn [ieee_neg ieee_add].
  destruct (Qeq_bool (r + - ex) 0) eqn:E; [apply Qeq_bool_iff in E; lra|].
  assert (C : c_eq (DFin (r + - ex)) (DZero false) = false).
  { unfold c_eq. cbn [ieee_cmp]. destruct (Qcompare_spec (r + - ex) 0); try reflexivity; lra. }
  rewrite C. cbn [andb]. unfold f_div. cbn [ieee_div fl d_abs].
  eexists. split; [reflexivity|].
  assert (P : (0 <= (r + - ex) / r)%Q).
  { apply Qle_shift_div_l; [exact Hr'|]. lra. }
  rewrite Qabs_pos by exact P. rewrite Qabs_pos by lra.
  assert (D : ((r + - ex) / r == 1 - 1 / k)%Q).
  { unfold r. field. split; lra. }
  split; [exact D|]. split.
  - rewrite D. assert (0 < 1 / k)%Q; [|lra]. apply Qlt_shift_div_l; lra.
  - unfold r. field. lra.
Qed.

(** ** Vector functions *)

Definition not_nan (d : datum) : Prop := d <> DNaN.

Lemma c_gt_le_trans : forall y z m, z <> DNaN -> m <> DNaN ->
  c_gt y z = false -> c_gt z m = false -> c_gt y m = false.
Proof.
  intros y z m. unfold c_gt.
  destruct y as [|[|]|s|p], z as [|[|]|t|q], m as [|[|]|u|r]; cbn [ieee_cmp Bool.eqb];
    try congruence;
    repeat match goal with |- context [Qcompare ?a ?b] => destruct (Qcompare_spec a b) end;
    try congruence; intros; exfalso; lra.
Qed.

Lemma vmax_spec : forall l m, m <> DNaN ->
  let m' := fold_left vmax_step l m in
  m' <> DNaN
  /\ (forall x, In x l -> c_gt x m' = false)
  /\ c_gt m m' = false
  /\ (m' = m \/ In m' l).
Proof.
  induction l as [|x l IH]; intros m Hm; cbn [fold_left].
  { cbv zeta. repeat split; auto using c_gt_irrefl; intros ? []. }
  cbv zeta. assert (Hx : vmax_step m x <> DNaN).
  { unfold vmax_step, c_max. destruct x; cbn; try assumption;
      match goal with |- context [if ?b then _ else _] => destruct b end; congruence. }
  destruct (IH (vmax_step m x) Hx) as (A & B & C & D). cbv zeta in *.
  set (m' := fold_left vmax_step l (vmax_step m x)) in *. clearbody m'.
  assert (K : forall y, c_gt y (vmax_step m x) = false -> c_gt y m' = false).
  { intros y Hy. exact (c_gt_le_trans y _ m' Hx A Hy C). }
  assert (Kx : c_gt x (vmax_step m x) = false /\ c_gt m (vmax_step m x) = false).
  { unfold vmax_step, c_max. destruct (is_nan_d x) eqn:N.
    - split; [destruct x; try discriminate; reflexivity | apply c_gt_irrefl].
    - destruct (c_gt x m) eqn:G; [|split; [exact G | apply c_gt_irrefl]].
      split; [apply c_gt_irrefl|].
      destruct (c_gt m x) eqn:G'; [|reflexivity].
      pose proof (c_gt_trans2 _ _ _ G G') as T. rewrite c_gt_irrefl in T. discriminate. }
  split; [exact A|]. split.
  { intros y [<-|Hy]; [apply K; apply Kx | apply B; exact Hy]. }
  split; [apply K; apply Kx|].
  destruct D as [D|D]; [|right; right; exact D].
  unfold vmax_step, c_max in D. destruct (is_nan_d x); [left; exact D|].
  destruct (c_gt x m); [right; left; symmetry; exact D | left; exact D].
Qed.

(** the returned relative error is the largest one, NaNs apart *)
Theorem vector_max_error_correct : forall rows,
  let m := fst (vector_max_error rows) in
  m <> DNaN
  /\ (forall r, In r rows -> c_gt (rel_err r) m = false)
  /\ (m = minus_one \/ exists r, In r rows /\ m = rel_err r).
Proof.
  intros rows m. unfold m, vector_max_error. cbn [fst].
  destruct (vmax_spec (map rel_err rows) minus_one ltac:(discriminate)) as (A & B & _ & D).
  cbv zeta in *. split; [exact A|]. split.
  - intros r H. apply B. apply in_map. exact H.
  - destruct D as [D|D]; [left; exact D|]. right.
    apply in_map_iff in D as (r & E & I). exists r. auto.
Qed.

(** a row whose error is a NaN changes nothing, be the NaN expected or not;
    the printed relative error is the absolute one *)
Theorem vector_max_error_nan_refuted : forall rows1 rows2 ab v,
  fst (vector_max_error (rows1 ++ mkerr DNaN ab v :: rows2))
  = fst (vector_max_error (rows1 ++ rows2)).
Proof.
  intros rows1 rows2 ab v. unfold vector_max_error. cbn [fst].
  rewrite !map_app, !fold_left_app. cbn [map fold_left rel_err vmax_step is_nan_d]. reflexivity.
Qed.

Theorem vector_max_error_print_refuted : forall r,
  rel_err r <> DNaN -> c_gt (rel_err r) minus_one = true ->
  abs_err r <> DNaN -> c_gt (abs_err r) minus_one = true ->
  vector_max_error [r] = (rel_err r, (abs_err r, abs_err r)).
Proof.
  intros [re ab v] H1 G1 H2 G2. cbn [rel_err abs_err] in *.
  unfold vector_max_error. cbn [map fold_left rel_err abs_err]. unfold vmax_step, c_max.
  rewrite G1, G2. destruct re, ab; try congruence; reflexivity.
Qed.
