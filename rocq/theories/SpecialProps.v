(* C01, C02: special-value arithmetic and comparisons. *)
From Coq Require Import ZArith QArith Bool Lqa.
From Verif Require Import FpFormatModel SpecialModel SpecialSpec.

(* sign case of a rational *)
Lemma qcase : forall q, {(q == 0)%Q} + {(q < 0)%Q} + {(0 < q)%Q}.
Proof.
  intros q. destruct (Qlt_le_dec q 0); [left; right; auto|].
  destruct (Qlt_le_dec 0 q); [right; auto|]. left; left. lra.
Qed.

Lemma q_zero : forall q, (q == 0)%Q ->
  Qeq_bool q 0 = true /\ Qle_bool q 0 = true /\ Qle_bool 0 q = true /\ Qcompare q 0 = Eq /\ Qcompare 0 q = Eq
  /\ Qeq_bool (- q) 0 = true /\ Qeq_bool (0 - q) 0 = true.
Proof.
  intros q H. repeat split; try (apply Qle_bool_iff; lra); try (apply Qeq_eq_bool; lra).
  - apply (proj1 (Qeq_alt q 0)); auto.
  - apply (proj1 (Qeq_alt 0 q)); lra.
Qed.

Lemma not_qle : forall a b, (b < a)%Q -> Qle_bool a b = false.
Proof.
  intros a b H. destruct (Qle_bool a b) eqn:E; auto. apply Qle_bool_iff in E. lra.
Qed.
Lemma not_qeq : forall a b, ~ (a == b)%Q -> Qeq_bool a b = false.
Proof. intros a b H. destruct (Qeq_bool a b) eqn:E; auto. apply Qeq_bool_eq in E. contradiction. Qed.

Lemma q_neg : forall q, (q < 0)%Q ->
  Qeq_bool q 0 = false /\ Qle_bool q 0 = true /\ Qle_bool 0 q = false /\ Qcompare q 0 = Lt /\ Qcompare 0 q = Gt
  /\ Qeq_bool (- q) 0 = false.
Proof.
  intros q H. repeat split; try (apply Qle_bool_iff; lra); try (apply not_qeq; lra); try (apply not_qle; lra).
  - apply (proj1 (Qlt_alt q 0)); auto.
  - apply (proj1 (Qgt_alt 0 q)); lra.
Qed.
Lemma q_pos : forall q, (0 < q)%Q ->
  Qeq_bool q 0 = false /\ Qle_bool q 0 = false /\ Qle_bool 0 q = true /\ Qcompare q 0 = Gt /\ Qcompare 0 q = Lt
  /\ Qeq_bool (- q) 0 = false.
Proof.
  intros q H. repeat split; try (apply Qle_bool_iff; lra); try (apply not_qeq; lra); try (apply not_qle; lra).
  - apply (proj1 (Qgt_alt q 0)); auto.
  - apply (proj1 (Qlt_alt 0 q)); lra.
Qed.

Ltac sgn q :=
  let H := fresh "H" in
  destruct (qcase q) as [[H|H]|H];
  [ destruct (q_zero q H) as (?&?&?&?&?&?&?)
  | destruct (q_neg q H) as (?&?&?&?&?&?)
  | destruct (q_pos q H) as (?&?&?&?&?&?) ].

Ltac rw := repeat match goal with
  | E : ?x = _ |- context [?x] =>
      match x with
      | Qeq_bool _ _ => rewrite E | Qle_bool _ _ => rewrite E | Qcompare _ _ => rewrite E
      end
  end.

Ltac solve_case :=
  try contradiction; try (exfalso; tauto);
  repeat match goal with
  | |- exists _, _ => idtac
  | q : Q |- _ => progress (sgn q); clear q || idtac
  end.

Definition computes (r : res fpv) (d : datum) : Prop :=
  exists v, r = Ok v /\ datum_eq (datum_of v) d.

Ltac ev :=
  unfold py_sub, special_value_sub, ieee_sub;
  repeat (unfold py_add, py_mul, py_div, special_value_add, special_value_mul, special_value_div,
    with_precision, sv_neg, is_zero, is_positive, is_negative, is_infty, is_plus_zero, is_minus_zero, is_nan,
    is_plus_infty, is_minus_infty, is_number, num_is_zero, num_gt0, num_lt0, num_ge0, datum_of, ieee_add,
    ieee_neg, ieee_mul, ieee_div, neg_of, datum_of; rw; cbn [andb orb negb xorb Bool.eqb]).

Ltac fin := first
  [ eexists; split; [reflexivity|]; unfold datum_of; rw; cbn [datum_eq]; first [exact I | reflexivity]
  | idtac ].

(* C01: with a rounding mode set, every sum of two operands of which one is
   special has the IEEE class and sign (numbers equal to 0 included) *)
Theorem special_add_correct : forall m l r, special l \/ special r ->
  computes (py_add (Some m) l r) (ieee_add m (datum_of l) (datum_of r)).
Proof.
  intros m l r S. unfold computes.
  destruct l as [p| | | | | |], r as [q| | | | | |]; cbn [special] in S; try tauto;
    try (sgn p); try (sgn q); try (destruct m); ev; fin.
Qed.

Example special_add_case : special_value_add (Some RN) MZero PZero = Ok PZero
  /\ special_value_add (Some RD) MZero PZero = Ok MZero /\ py_add (Some RN) (Num (5#1)) MInf = Ok MInf
  /\ py_add None PInf MInf = Ok QNaN.
Proof. repeat split. Qed.

(* with no rounding mode set, the sum of zeros depends on operand order *)
Theorem special_add_unset_rounding_refuted :
  py_add None MZero PZero = Ok MZero /\ py_add None PZero MZero = Ok PZero.
Proof. split; reflexivity. Qed.

(* without rounding mode the only wrong sums are those of zeros of opposite sign *)
Theorem special_add_unset_rounding_partial : forall l r, special l \/ special r ->
  ~ (exists s, datum_of l = DZero s /\ datum_of r = DZero (negb s)) ->
  computes (py_add None l r) (ieee_add RN (datum_of l) (datum_of r)).
Proof.
  intros l r S NZ. unfold computes.
  destruct l as [p| | | | | |], r as [q| | | | | |]; cbn [special] in S; try tauto;
    try (sgn p); try (sgn q); ev; fin;
    exfalso; apply NZ; unfold datum_of; rw;
    first [exists true; split; reflexivity | exists false; split; reflexivity].
Qed.

(* subtraction: the full claim also covers a plain number 0 as right operand,
   which is false (next theorem) *)
Theorem special_sub_correct_partial : forall m l r, special l \/ special r -> no_num_zero r ->
  computes (py_sub (Some m) l r) (ieee_sub m (datum_of l) (datum_of r)).
Proof.
  intros m l r S NZ. unfold computes.
  destruct l as [p| | | | | |], r as [q| | | | | |]; cbn [special] in S; cbn [no_num_zero] in NZ; try tauto;
    try (sgn p); try (sgn q); try contradiction; try (destruct m); ev; fin.
Qed.

Example special_sub_case : py_sub (Some RN) (Num 3) MInf = Ok PInf /\ py_sub (Some RN) PZero PZero = Ok PZero
  /\ py_sub (Some RD) PZero PZero = Ok MZero.
Proof. repeat split. Qed.

Theorem special_sub_number_zero_refuted :
  py_sub (Some RN) MZero (Num 0) = Ok PZero /\ ieee_sub RN (datum_of MZero) (datum_of (Num 0)) = DZero true.
Proof. split; reflexivity. Qed.

(* multiplication: missing only products of a signed zero by the plain number 0 *)
Theorem special_mul_correct_partial : forall l r, special l \/ special r -> no_num_zero l -> no_num_zero r ->
  computes (py_mul l r) (ieee_mul (datum_of l) (datum_of r)).
Proof.
  intros l r S NL NR. unfold computes.
  destruct l as [p| | | | | |], r as [q| | | | | |]; cbn [special] in S; cbn [no_num_zero] in NL, NR; try tauto;
    try (sgn p); try (sgn q); try contradiction; ev; fin.
Qed.

(* infinity times the plain number 0 is a NaN as it should *)
Theorem special_mul_inf_zero : forall l q, (q == 0)%Q -> is_infty l = true ->
  computes (py_mul l (Num q)) DNaN /\ computes (py_mul (Num q) l) DNaN.
Proof.
  intros l q H I. unfold computes.
  destruct l; try discriminate; sgn q; try lra; ev; split; fin.
Qed.

Example special_mul_case : py_mul MInf (Num (-2)) = Ok PInf /\ py_mul (Num (-2)) PZero = Ok MZero
  /\ py_mul PZero MInf = Ok QNaN.
Proof. repeat split. Qed.

Theorem special_mul_number_zero_refuted :
  py_mul PZero (Num 0) = Ok MZero /\ ieee_mul (datum_of PZero) (datum_of (Num 0)) = DZero false.
Proof. split; reflexivity. Qed.

(* division: missing a plain number 0 as dividend of an infinity and a plain
   number divided by NaN (both false below) *)
Theorem special_div_correct_partial : forall l r, special l \/ special r -> no_num_zero l ->
  (is_number l = true -> is_nan r = false) ->
  computes (py_div l r) (ieee_div (datum_of l) (datum_of r)).
Proof.
  intros l r S NL NN. unfold computes.
  destruct l as [p| | | | | |], r as [q| | | | | |]; cbn [special] in S; cbn [no_num_zero] in NL; try tauto;
    try (specialize (NN eq_refl); discriminate);
    try (sgn p); try (sgn q); try contradiction; ev; fin.
Qed.

Example special_div_case : py_div (Num (-2)) MZero = Ok PInf /\ py_div MInf (Num 0) = Ok MInf
  /\ py_div PZero (Num (-3)) = Ok MZero.
Proof. repeat split. Qed.

Theorem special_div_refuted :
  (py_div (Num 0) PInf = Ok MZero /\ ieee_div (datum_of (Num 0)) (datum_of PInf) = DZero false)
  /\ py_div (Num 1) QNaN = Err.
Proof. repeat split. Qed.

(* ---------------- C02 ---------------- *)
Lemma qlt_cmp : forall a b, qlt a b = match Qcompare a b with Lt => true | _ => false end.
Proof.
  intros a b. unfold qlt. destruct (Qcompare a b) eqn:E.
  - apply Qeq_alt in E. assert (Qle_bool b a = true) as -> by (apply Qle_bool_iff; lra). reflexivity.
  - apply Qlt_alt in E. rewrite not_qle by auto. reflexivity.
  - apply Qgt_alt in E. assert (Qle_bool b a = true) as -> by (apply Qle_bool_iff; lra). reflexivity.
Qed.

Ltac evc :=
  unfold py_lt, py_gt, py_le, py_ge, py_eq, py_ne, special_value_less_than, special_value_equal,
    number_less_than_special_value, is_zero, is_plus_zero, is_minus_zero, is_nan, is_infty,
    is_plus_infty, is_minus_infty, is_number, num_is_zero, to_sollya, sollya_lt,
    pred_lt, pred_gt, pred_le, pred_ge, pred_eq, ieee_cmp, datum_of;
  rewrite ?qlt_cmp;
  repeat (rw; cbn [andb orb negb xorb Bool.eqb of_bool negate]).

Ltac cmp_all l r :=
  destruct l as [p| | | | | |], r as [q| | | | | |];
  repeat match goal with H : special (Num _) |- _ => contradiction H end;
  try discriminate; try contradiction; try (sgn p); try (sgn q); try contradiction; evc;
  try reflexivity; try discriminate.

(* left operand special: <, >, >= and == agree with the extended-real order
   whatever the right operand *)
Theorem special_left_lt : forall l r, special l -> py_lt l r = Ok (pred_lt (datum_of l) (datum_of r)).
Proof. intros l r S. cmp_all l r. Qed.
Theorem special_left_gt : forall l r, special l -> py_gt l r = Ok (pred_gt (datum_of l) (datum_of r)).
Proof. intros l r S. cmp_all l r. Qed.
Theorem special_left_ge : forall l r, special l -> py_ge l r = Ok (pred_ge (datum_of l) (datum_of r)).
Proof. intros l r S. cmp_all l r. Qed.
Theorem special_left_eq : forall l r, special l -> py_eq l r = Ok (pred_eq (datum_of l) (datum_of r)).
Proof. intros l r S. cmp_all l r. Qed.
(* <= against an arbitrary right operand fails only for an infinity on the left
   and a number on the right *)
Theorem special_left_le_partial : forall l r, special l -> ~ (is_infty l = true /\ is_number r = true) ->
  py_le l r = Ok (pred_le (datum_of l) (datum_of r)).
Proof.
  intros l r S N. destruct l as [p| | | | | |], r as [q| | | | | |]; try contradiction;
  try (exfalso; apply N; split; reflexivity); try (sgn q); evc; reflexivity.
Qed.

(* left operand a number, right operand special *)
Theorem number_left_le : forall q r, special r -> py_le (Num q) r = Ok (pred_le (datum_of (Num q)) (datum_of r)).
Proof. intros p r S. destruct r; try contradiction; sgn p; evc; reflexivity. Qed.
Theorem number_left_lt_partial : forall q r, special r -> is_infty r = false ->
  py_lt (Num q) r = Ok (pred_lt (datum_of (Num q)) (datum_of r)).
Proof. intros p r S N. destruct r; try contradiction; try discriminate; sgn p; evc; reflexivity. Qed.
Theorem number_left_ge_partial : forall q r, special r -> is_infty r = false ->
  py_ge (Num q) r = Ok (pred_ge (datum_of (Num q)) (datum_of r)).
Proof. intros p r S N. destruct r; try contradiction; try discriminate; sgn p; evc; reflexivity. Qed.
Theorem number_left_eq_partial : forall q r, special r -> ~ (q == 0)%Q ->
  py_eq (Num q) r = Ok (pred_eq (datum_of (Num q)) (datum_of r)).
Proof. intros p r S N. destruct r; try contradiction; sgn p; try contradiction; evc; reflexivity. Qed.

(* two numbers *)
Theorem number_number_comparisons : forall p q,
  py_lt (Num p) (Num q) = Ok (of_bool (qlt p q)) /\ py_gt (Num p) (Num q) = Ok (of_bool (qlt q p))
  /\ py_ge (Num p) (Num q) = Ok (of_bool (negb (qlt p q))) /\ py_le (Num p) (Num q) = Ok (of_bool (negb (qlt q p))).
Proof.
  intros p q. 
  assert (Z0 : forall a b, (b == 0)%Q -> qlt a 0 = qlt a b).
  { intros a b Hb. rewrite !qlt_cmp. rewrite (Qcompare_comp a a (Qeq_refl a) 0%Q b); auto. rewrite Hb. reflexivity. }
  unfold py_lt, py_gt, py_ge, py_le, py_ge, number_less_than_special_value, is_nan, is_minus_infty, is_plus_infty,
    is_number, to_sollya, is_zero, is_plus_zero, is_minus_zero, num_is_zero, sollya_lt. cbn [orb andb].
  destruct (Qeq_bool q 0) eqn:Eq; destruct (Qeq_bool p 0) eqn:Ep;
  try apply Qeq_bool_eq in Eq; try apply Qeq_bool_eq in Ep;
  rewrite ?(Z0 p q Eq), ?(Z0 q p Ep);
  destruct (qlt p q), (qlt q p); repeat split.
Qed.

Example special_cmp_case : py_lt MInf (Num 3) = Ok T /\ py_eq PZero MZero = Ok T /\ py_lt QNaN (Num 3) = Ok Unordered.
Proof. repeat split. Qed.

(* the swapped cases and the exceptions *)
Theorem number_lt_infinity_refuted :
  py_lt (Num 5) PInf = Ok F_ /\ py_lt (Num 5) MInf = Ok T /\ py_ge (Num 5) PInf = Ok T.
Proof. repeat split. Qed.
Theorem infinity_le_number_refuted : py_le PInf (Num 5) = Ok T /\ py_le MInf (Num 5) = Ok F_.
Proof. repeat split. Qed.
Theorem number_gt_special_refuted : py_gt (Num 5) PInf = Err /\ py_gt (Num 5) PZero = Err /\ py_gt (Num 5) QNaN = Ok F_.
Proof. repeat split. Qed.
Theorem zero_equality_not_symmetric_refuted : py_eq PZero (Num 0) = Ok T /\ py_eq (Num 0) PZero = Ok F_.
Proof. repeat split. Qed.

Print Assumptions special_add_correct.
Print Assumptions special_sub_correct_partial.
Print Assumptions special_mul_correct_partial.
Print Assumptions special_div_correct_partial.
Print Assumptions special_left_lt.
Print Assumptions number_number_comparisons.
