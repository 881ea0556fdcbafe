From Coq Require Import ZArith QArith Qpower Qabs Qround Bool Lia Lqa.
From Verif Require Import QUtil FpFormatModel SpecialModel PowModel PowSpec.
Open Scope Z_scope.

Lemma pow2_p2 : forall e, (pow2 e == p2 e)%Q.
Proof.
  intro e. unfold pow2. destruct (Z.leb_spec 0 e).
  - symmetry. apply p2_Z; lia.
  - pose proof (p2_opp e) as Ho. rewrite (p2_Z (- e)) in Ho by lia.
    assert (~ inject_Z (2 ^ (- e)) == 0)%Q.
    { intro Hc. rewrite Hc in Ho. lra. }
    setoid_replace (p2 e) with (p2 e * inject_Z (2 ^ (- e)) * / inject_Z (2 ^ (- e)))%Q
      by (field; auto).
    setoid_replace (p2 e * inject_Z (2 ^ (- e)))%Q with 1%Q by (rewrite Qmult_comm; exact Ho).
    ring.
Qed.

Lemma inj_lt : forall a b, (inject_Z a < inject_Z b)%Q <-> a < b.
Proof. intros. rewrite Zlt_Qlt. reflexivity. Qed.
Lemma inj_le : forall a b, (inject_Z a <= inject_Z b)%Q <-> a <= b.
Proof. intros. rewrite Zle_Qle. reflexivity. Qed.
Lemma inj_eq : forall a b, (inject_Z a == inject_Z b)%Q <-> a = b.
Proof. intros. apply inject_Z_injective. Qed.
Lemma inj_inv : forall a b, (inject_Z a == inject_Z b)%Q -> a = b.
Proof. intros a b. apply inject_Z_injective. Qed.

(* an odd integer of the format is below 2^p *)
Lemma odd_small : forall p q k m e, 0 <= p ->
  (q == inject_Z (2 * k + 1))%Q -> Z.abs m < 2 ^ p -> (q == inject_Z m * pow2 e)%Q ->
  Z.abs (2 * k + 1) < 2 ^ p.
Proof.
  intros p q k m e Hp Hk Hm Hq. rewrite Hq in Hk.
  unfold pow2 in Hk. destruct (Z.leb_spec 0 e).
  - rewrite <- inject_Z_mult in Hk. apply (inj_inv _ _) in Hk.
    destruct (Z.eq_dec e 0) as [->|].
    + change (2 ^ 0) with 1 in Hk. lia.
    + replace e with (Z.succ (e - 1)) in Hk by lia. rewrite Z.pow_succ_r in Hk by lia. lia.
  - set (d := 2 ^ (- e)) in *. assert (0 < d) by (apply Z.pow_pos_nonneg; lia).
    assert (inject_Z m == inject_Z ((2 * k + 1) * d))%Q as Hm2.
    { rewrite inject_Z_mult, <- Hk. field. intro Hc. change 0%Q with (inject_Z 0) in Hc.
      apply (inj_inv _ _) in Hc. lia. }
    apply (inj_inv _ _) in Hm2. subst m. rewrite Z.abs_mul in Hm.
    assert (Z.abs (2 * k + 1) * 1 <= Z.abs (2 * k + 1) * Z.abs d) by (apply Z.mul_le_mono_nonneg_l; lia).
    lia.
Qed.

Lemma qle_false : forall a b, Qle_bool a b = false <-> (b < a)%Q.
Proof.
  intros. split; intro H.
  - apply Qnot_le_lt. intro Hc. apply Qle_bool_iff in Hc. congruence.
  - destruct (Qle_bool a b) eqn:E; auto. apply Qle_bool_iff in E. lra.
Qed.
Lemma negb_qle : forall a b, negb (Qle_bool a b) = true <-> (b < a)%Q.
Proof. intros. rewrite negb_true_iff. apply qle_false. Qed.

Lemma rem_odd : forall k, Z.rem k 2 = 1 <-> 0 < k /\ exists j, k = 2 * j + 1.
Proof.
  intro k. split.
  - intro H. split.
    + destruct (Z.leb_spec k 0); [|lia]. pose proof (Z.rem_nonpos k 2). lia.
    + exists (Z.quot k 2). pose proof (Z.quot_rem' k 2). lia.
  - intros (Hp & j & ->). rewrite Z.rem_mod_nonneg by lia.
    rewrite Z.add_comm, Z.mul_comm, Z.mod_add by lia. reflexivity.
Qed.

(* the oddness test of the code: odd and positive *)
Theorem y_is_odd_spec : forall p y, 0 <= p -> in_format p y ->
  y_is_odd p y = true <-> odd_int y /\ fpos y.
Proof.
  intros p y Hp Hf. split.
  - intro H. destruct y as [q| | | | | |]; try discriminate H.
    2,3: unfold y_is_odd in H; change (Z.rem (c_int _) 2 =? 1) with false in H; rewrite andb_false_r in H; discriminate H.
    unfold y_is_odd in H. cbn [c_nearest c_abs c_lt c_eq c_int] in H.
    apply andb_true_iff in H. destruct H as [H1 H2]. apply andb_true_iff in H1. destruct H1 as [_ H3].
    apply Qeq_bool_iff in H3. apply Z.eqb_eq in H2. rewrite Qfloor_Z in H2.
    apply rem_odd in H2. destruct H2 as (Hpos & j & Hj). split.
    + exists q, j. split; auto. rewrite <- Hj. symmetry. auto.
    + exists q. split; auto. assert (inject_Z 0 < inject_Z (qrne q))%Q as Hc by (apply inj_lt; auto).
      change (inject_Z 0) with 0%Q in Hc. lra.
  - intros ((q & k & -> & Hk) & (q' & Hq' & Hpos)). injection Hq' as <-.
    destruct Hf as (m & e & Hm & He).
    assert (0 < 2 * k + 1) as Hk0.
    { apply inj_lt. rewrite <- Hk. exact Hpos. }
    pose proof (odd_small p q k m e Hp Hk Hm He) as Hs.
    unfold y_is_odd. cbn [c_nearest c_abs c_lt c_eq c_int].
    rewrite (qrne_int q (2 * k + 1) Hk), Qfloor_Z.
    replace (Z.rem (2 * k + 1) 2) with 1 by (symmetry; apply rem_odd; split; [auto|eauto]).
    rewrite Z.eqb_refl, andb_true_r. apply andb_true_iff. split.
    + apply negb_qle. rewrite Qabs_pos by lra. rewrite Hk, p2_Z by lia. apply inj_lt.
      assert (2 ^ p <= 2 ^ (p + 1)) by (apply Z.pow_le_mono_r; lia). lia.
    + apply Qeq_bool_iff. symmetry. auto.
Qed.

Corollary y_is_odd_false : forall p y, 0 <= p -> in_format p y ->
  y_is_odd p y = false <-> ~ (odd_int y /\ fpos y).
Proof.
  intros. rewrite <- (y_is_odd_spec p y) by auto. destruct (y_is_odd p y); intuition congruence.
Qed.

(* ---- reading the comparisons with constants ---- *)
Ltac bools := repeat match goal with
  | H : _ && _ = true |- _ => apply andb_true_iff in H; destruct H
  | H : negb _ = true |- _ => apply negb_true_iff in H
  | H : negb _ = false |- _ => apply negb_false_iff in H
  | H : Qle_bool _ _ = true |- _ => apply Qle_bool_iff in H
  | H : Qle_bool _ _ = false |- _ => apply qle_false in H
  | H : Qeq_bool _ _ = true |- _ => apply Qeq_bool_iff in H
  | H : Qeq_bool _ _ = false |- _ => apply Qeq_bool_neq in H
  end.
Ltac specs := unfold is_zero_datum, inf_datum, odd_int, integral, fneg, fpos, is_one, mag_lt1, mag_gt1, canonical in *.
Ltac dall := repeat match goal with
  | H : _ /\ _ |- _ => destruct H
  | H : exists _, _ |- _ => destruct H
  | H : _ \/ _ |- _ => destruct H
  | H : Num _ = Num _ |- _ => injection H as H; try subst
  | H : ?a = ?b |- _ => discriminate H
  end; try subst.

Lemma lt0_iff : forall q, (q < 0)%Q <-> negb (Qle_bool 0 q) = true.
Proof. intros. symmetry. apply negb_qle. Qed.

(* the value of the decision list *)
Definition pow_table (odd : bool) (x y : fpv) : outcome :=
  match x, y with
  | SNaN, _ | _, SNaN => Ret QNaN
  | _, (PZero | MZero) => Ret (Num 1)
  | PZero, MInf | MZero, MInf => Ret MInf
  | PZero, PInf | MZero, PInf => Ret PInf
  | PZero, Num r => if Qle_bool 0 r then if odd then Ret PZero else Ret PZero else Ret PInf
  | MZero, Num r => if Qle_bool 0 r then if odd then Ret MZero else Ret PZero
                    else if odd then Ret MInf else Ret PInf
  | (PZero | MZero), QNaN => Numeric
  | QNaN, _ | _, QNaN => Numeric
  | Num q, PInf => if Qeq_bool q (-1) then Ret (Num 1) else
                   if negb (Qle_bool 1 (Qabs q)) then Ret PZero else
                   if negb (Qle_bool (Qabs q) 1) then Ret PInf else Numeric
  | Num q, MInf => if Qeq_bool q (-1) then Ret (Num 1) else
                   if negb (Qle_bool 1 (Qabs q)) then Ret PInf else
                   if negb (Qle_bool (Qabs q) 1) then Ret PZero else Numeric
  | Num q, Num r => Numeric
  | (PInf | MInf), PInf => Ret PInf
  | (PInf | MInf), MInf => Ret PZero
  | PInf, Num r => if Qle_bool 0 r then Ret PInf else Ret PZero
  | MInf, Num r => if Qle_bool 0 r then if odd then Ret MInf else Ret PInf
                   else if odd then Ret MZero else Ret PZero
  end.

Lemma pow_scheme_table : forall p x y, canonical x -> canonical y ->
  pow_scheme p x y = pow_table (y_is_odd p y) x y.
Proof.
  intros p x y Hx Hy. unfold pow_scheme.
  destruct x as [q| | | | | |], y as [r| | | | | |]; cbn [canonical] in Hx, Hy;
    cbn [t_snan t_zero t_pzero t_pinf t_minf t_inf c_lt c_eq c_abs zero orb andb negb pow_table y_is_odd c_nearest];
    try reflexivity.
  all: try (destruct (y_is_odd p (Num r)); cbn [orb andb negb]).
  all: repeat match goal with
       | |- context [if Qle_bool ?a ?b then _ else _] => let E := fresh "E" in destruct (Qle_bool a b) eqn:E
       | |- context [Qle_bool ?a ?b] => let E := fresh "E" in destruct (Qle_bool a b) eqn:E
       | |- context [Qeq_bool ?a ?b] => let E := fresh "E" in destruct (Qeq_bool a b) eqn:E
       end; cbn [orb andb negb]; try reflexivity.
  all: bools; try (exfalso; lra).
  all: exfalso; apply Hy; lra.
Qed.

Lemma odd_dec : forall y, odd_int y \/ ~ odd_int y.
Proof.
  intros [q| | | | | |]; try (right; intros (? & ? & H & _); discriminate H).
  destruct (Qeq_dec (inject_Z (qrne q)) q) as [E|E].
  - destruct (Z.Even_or_Odd (qrne q)) as [[k Hk]|[k Hk]].
    + right. intros (q' & j & Hq & Hj). injection Hq as <-.
      rewrite <- E, Hk in Hj. apply (inj_inv _ _) in Hj. lia.
    + left. exists q, k. split; auto. rewrite <- Hk. symmetry. auto.
  - right. intros (q' & j & Hq & Hj). injection Hq as <-. apply E.
    rewrite (qrne_int _ _ Hj). symmetry. auto.
Qed.

(* where the decision list answers, and where it hands over to the formula *)
Theorem pow_numeric_iff : forall p x y, canonical x -> canonical y ->
  pow_scheme p x y = Numeric <->
  (x <> SNaN /\ y <> SNaN /\ ~ is_zero_datum y /\
   (x = QNaN \/ y = QNaN \/ (is_one x /\ inf_datum y) \/
    (exists q r, x = Num q /\ y = Num r))).
Proof.
  intros p x y Hx Hy. rewrite pow_scheme_table by auto. split.
  - intro H. split; [|split; [|split]].
    + intros ->. discriminate H.
    + intros ->. destruct x; discriminate H.
    + intros [-> | ->]; destruct x; discriminate H.
    + destruct x as [q| | | | | |], y as [r| | | | | |]; cbn [pow_table] in H; try discriminate H;
        try (left; reflexivity); try (right; left; reflexivity);
        try (right; right; right; eauto; fail).
      all: repeat match type of H with
           | (if ?c then _ else _) = _ => let E := fresh "E" in destruct c eqn:E; try discriminate H
           end.
      all: bools; right; right; left; specs; split; [exists q; split; [reflexivity|]|auto].
      all: destruct (Qlt_le_dec q 0); [rewrite Qabs_neg in * by lra | rewrite Qabs_pos in * by lra]; try lra.
      all: exfalso; match goal with H : ~ _ |- _ => apply H; lra end.
  - intros (H1 & H2 & H3 & H).
    destruct x as [q| | | | | |], y as [r| | | | | |]; cbn [pow_table]; specs; try reflexivity; try tauto.
    1,2: assert (q == 1)%Q as E1 by (dall; auto).
    1,2: assert (Qeq_bool q (-1) = false) as -> by (destruct (Qeq_bool q (-1)) eqn:E; auto; bools; lra).
    1,2: assert (Qle_bool 1 (Qabs q) = true) as -> by (apply Qle_bool_iff; rewrite E1; discriminate).
    1,2: assert (Qle_bool (Qabs q) 1 = true) as -> by (apply Qle_bool_iff; rewrite E1; discriminate).
    1,2: reflexivity.
    all: exfalso; dall; tauto.
Qed.

Ltac qcases := repeat match goal with
  | |- context [if Qle_bool ?a ?b then _ else _] => let E := fresh "E" in destruct (Qle_bool a b) eqn:E
  | |- context [Qle_bool ?a ?b] => let E := fresh "E" in destruct (Qle_bool a b) eqn:E
  | |- context [Qeq_bool ?a ?b] => let E := fresh "E" in destruct (Qeq_bool a b) eqn:E
  end; cbn [orb andb negb].

Lemma abs_one : forall q, (q == 1)%Q -> (Qabs q == 1)%Q.
Proof. intros q ->. reflexivity. Qed.
Lemma abs_mone : forall q, (q == -1)%Q -> (Qabs q == 1)%Q.
Proof. intros q ->. reflexivity. Qed.

(* C93: every clause the list has right *)
Theorem pow_special_cases : forall p x y v, 0 <= p -> canonical x -> canonical y -> in_format p y ->
  ieee_pow x y v ->
  pow_scheme p x y = Ret v
  \/ (pow_scheme p x y = Numeric /\
      (is_one x \/ x = QNaN \/ y = QNaN \/ (fneg x /\ ~ integral y)))
  \/ (is_zero_datum x /\ inf_datum y)
  \/ ((x = MZero \/ x = MInf) /\ odd_int y /\ fneg y).
Proof.
  intros p x y v Hp Hx Hy Hf H. pose proof (y_is_odd_spec p y Hp Hf) as Ho.
  rewrite pow_scheme_table by auto.
  assert (forall z, y_is_odd p y = z -> z = true -> odd_int y /\ fpos y) as Ho1 by (intros; subst z; tauto).
  assert (forall z, y_is_odd p y = z -> z = false -> ~ (odd_int y /\ fpos y)) as Ho2
    by (intros z Hz Hz'; subst z; rewrite <- Ho; congruence).
  destruct H.
  - (* sNaN *) left. destruct H as [-> | ->]; [|destruct x]; reflexivity.
  - left. destruct H0 as [-> | ->]; destruct x; try reflexivity; congruence.
  - (* x = 1 *)
    destruct H as (q & -> & Hq). destruct y as [r| | | | | |]; cbn [pow_table]; try congruence;
      try (left; reflexivity); try (right; left; split; [reflexivity|left; exists q; auto]).
    all: right; left; split; [|left; exists q; auto].
    all: pose proof (abs_one q Hq); qcases; bools; try reflexivity; exfalso; try lra.
    all: match goal with H : ~ _ |- _ => apply H; lra end.
  - right. left. split; [|tauto]. destruct y; try reflexivity; exfalso; specs; tauto.
  - right. left. split; [|tauto]. destruct x; try reflexivity; exfalso; tauto.
  - (* +0, odd < 0 *)
    left. destruct H0 as (r & -> & Hr). cbn [pow_table]. qcases; bools; try reflexivity. lra.
  - right. right. right. tauto.
  - right. right. left. split; auto. right; auto.
  - (* zero, < 0, not odd *)
    left. destruct H0 as (r & -> & Hr).
    destruct (y_is_odd p (Num r)) eqn:E1.
    { exfalso. destruct (Ho1 _ eq_refl eq_refl) as [Hc _]. auto. }
    destruct H as [-> | ->]; cbn [pow_table]; qcases; bools; try reflexivity; lra.
  - right. right. left. split; auto. left; auto.
  - (* zero, odd > 0 *)
    left. destruct (y_is_odd p y) eqn:E1; [|exfalso; apply (Ho2 _ eq_refl eq_refl); auto].
    destruct H1 as (r & -> & Hr).
    destruct H as [-> | ->]; cbn [pow_table]; qcases; bools; try reflexivity; lra.
  - left. destruct (y_is_odd p y) eqn:E1; [exfalso; destruct (Ho1 _ eq_refl eq_refl); auto|].
    destruct H0 as (r & -> & Hr).
    destruct H as [-> | ->]; cbn [pow_table]; qcases; bools; try reflexivity; lra.
  - left. destruct H0 as [-> | ->]; cbn [pow_table];
      (assert (Qeq_bool q (-1) = true) as -> by (apply Qeq_bool_iff; auto)); reflexivity.
  - destruct H as [H|(q & -> & Hq)].
    + right. right. left. split; auto. left; auto.
    + left. cbn [pow_table]. qcases; bools; try reflexivity; try lra.
      pose proof (abs_mone q ltac:(auto)). lra.
  - left. destruct H as [[-> | ->]|(q & -> & Hq)]; try reflexivity.
    cbn [pow_table]. qcases; bools; try reflexivity; try lra.
    all: pose proof (abs_mone q ltac:(auto)); lra.
  - destruct H as [H|(q & -> & Hq)].
    + right. right. left. split; auto. right; auto.
    + left. cbn [pow_table]. qcases; bools; try reflexivity; try lra.
      pose proof (abs_mone q ltac:(auto)). lra.
  - left. destruct H as [[-> | ->]|(q & -> & Hq)]; try reflexivity.
    cbn [pow_table]. qcases; bools; try reflexivity; try lra.
    all: pose proof (abs_mone q ltac:(auto)); lra.
  - left. destruct H as (r & -> & Hr). cbn [pow_table]. qcases; bools; try reflexivity. lra.
  - left. destruct H as (r & -> & Hr). cbn [pow_table]. qcases; bools; try reflexivity. lra.
  - right. right. right. tauto.
  - left. destruct (y_is_odd p y) eqn:E1; [|exfalso; apply (Ho2 _ eq_refl eq_refl); auto].
    destruct H0 as (r & -> & Hr). cbn [pow_table]. qcases; bools; try reflexivity. lra.
  - left. destruct (y_is_odd p y) eqn:E1; [exfalso; destruct (Ho1 _ eq_refl eq_refl); auto|].
    destruct H as (r & -> & Hr). cbn [pow_table]. qcases; bools; try reflexivity. lra.
  - left. destruct (y_is_odd p y) eqn:E1; [exfalso; destruct (Ho1 _ eq_refl eq_refl); auto|].
    destruct H as (r & -> & Hr). cbn [pow_table]. qcases; bools; try reflexivity. lra.
  - right. left. destruct H as (q & -> & Hq), H0 as (r & ->). split; [reflexivity|].
    right. right. right. split; auto. exists q. auto.
Qed.

(* the three families the list has wrong, whatever the format *)
Theorem pow_zero_inf_refuted : forall p x, is_zero_datum x ->
  pow_scheme p x MInf = Ret MInf /\ ieee_pow x MInf PInf /\
  pow_scheme p x PInf = Ret PInf /\ ieee_pow x PInf PZero.
Proof.
  intros p x H. assert (canonical x) by (destruct H as [-> | ->]; exact I).
  rewrite !pow_scheme_table by (auto; exact I).
  split; [|split; [|split]]; try (constructor; auto; fail); destruct H as [-> | ->]; reflexivity.
Qed.

Theorem pow_negative_odd_refuted : forall p y, odd_int y -> fneg y ->
  pow_scheme p MZero y = Ret PInf /\ ieee_pow MZero y MInf /\
  pow_scheme p MInf y = Ret PZero /\ ieee_pow MInf y MZero.
Proof.
  intros p y Ho Hn.
  assert (canonical y) as Hc.
  { destruct Hn as (r & -> & Hr). cbn [canonical]. intro. lra. }
  assert (y_is_odd p y = false) as E.
  { destruct (y_is_odd p y) eqn:E; auto. exfalso. destruct Hn as (r & -> & Hr).
    unfold y_is_odd in E. cbn [c_nearest c_abs c_lt c_eq c_int] in E. bools.
    match goal with H : (Z.rem _ _ =? 1) = true |- _ => apply Z.eqb_eq in H; rewrite Qfloor_Z in H;
      apply rem_odd in H; destruct H as [Hpos _] end.
    assert (inject_Z 0 < inject_Z (qrne r))%Q as Hq by (apply inj_lt; auto).
    change (inject_Z 0) with 0%Q in Hq. lra. }
  rewrite !pow_scheme_table by (auto; exact I). rewrite E.
  split; [|split; [|split]]; try (constructor; auto; fail).
  all: destruct Hn as (r & -> & Hr); cbn [pow_table]; qcases; bools; try reflexivity; lra.
Qed.

(* the unit base: 1 is never tested *)
Theorem pow_one_refuted : forall p y, inf_datum y \/ y = QNaN ->
  pow_scheme p (Num 1) y = Numeric /\ ieee_pow (Num 1) y (Num 1).
Proof.
  intros p y H. split.
  - apply pow_numeric_iff. { discriminate. } { destruct H as [[-> | ->]| ->]; exact I. }
    split; [discriminate|]. split; [destruct H as [[-> | ->]| ->]; discriminate|].
    split; [destruct H as [[-> | ->]| ->]; intros [?|?]; discriminate|].
    destruct H as [H|H]; [right; right; left|tauto]. split; auto. exists 1%Q. split; reflexivity.
  - apply IP_x_one. { exists 1%Q. split; reflexivity. } destruct H as [[-> | ->]| ->]; discriminate.
Qed.

(* ---- the exponents ---- *)
Theorem pow_exponent_negative : forall e L y, e < 0 ->
  (snd (pow_numeric e L y) == y * (inject_Z e + L))%Q.
Proof.
  intros e L y He. unfold pow_numeric, pow_exponents. rewrite (proj2 (Z.ltb_lt _ _) He).
  cbn [snd]. rewrite inject_Z_plus. ring.
Qed.
Theorem pow_exponent_deviation : forall e L y, 0 <= e ->
  (snd (pow_numeric e L y) - y * (inject_Z e + L) ==
   inject_Z (qrne (inject_Z e * y)) - inject_Z e * y)%Q.
Proof.
  intros e L y He. unfold pow_numeric, pow_exponents. rewrite (proj2 (Z.ltb_ge _ _) He).
  cbn [snd]. ring.
Qed.
Theorem pow_exponent_nonnegative_iff : forall e L y, 0 <= e ->
  (snd (pow_numeric e L y) == y * (inject_Z e + L))%Q <-> exists k, (inject_Z e * y == inject_Z k)%Q.
Proof.
  intros e L y He. pose proof (pow_exponent_deviation e L y He) as H. split.
  - intro E. exists (qrne (inject_Z e * y)). lra.
  - intros (k & Hk). rewrite (qrne_int _ _ Hk) in H. lra.
Qed.
(* the arguments of the 2^x approximations *)
Theorem pow_fraction_small : forall e L y,
  let '(_, f, t) := pow_exponents e L y in
  (Qabs f <= 1)%Q /\ (e < 0 -> (t == 0)%Q) /\ (0 <= e -> (f == 0)%Q).
Proof.
  intros e L y. unfold pow_exponents. destruct (Z.ltb_spec e 0).
  - split; [|split; [reflexivity|lia]].
    pose proof (qrne_half (inject_Z e * y)) as H1. pose proof (qrne_half (L * y)) as H2.
    apply Qabs_Qle_condition in H1, H2. apply Qabs_Qle_condition. lra.
  - split; [|split; [lia|intros; ring]].
    setoid_replace (inject_Z (qrne (inject_Z e * y)) - inject_Z (qrne (inject_Z e * y)))%Q with 0%Q by ring.
    discriminate.
Qed.
(* the sign is never set *)
Theorem pow_sign_positive : forall e L y, fst (pow_numeric e L y) = false.
Proof.
  intros. unfold pow_numeric. destruct (pow_exponents e L y) as [[? ?] ?]. reflexivity.
Qed.

(* ---- the emulation of pow ---- *)
Lemma qtrunc_int : forall q k, (q == inject_Z k)%Q -> qtrunc q = k.
Proof.
  intros q k H. unfold qtrunc. destruct (Qle_bool 0 q).
  - rewrite (Qfloor_comp _ _ H). apply Qfloor_Z.
  - assert (- q == inject_Z (- k))%Q as H' by (rewrite H, inject_Z_opp; reflexivity).
    rewrite (Qfloor_comp _ _ H'), Qfloor_Z. lia.
Qed.
Lemma emu_odd_num : forall r, emu_odd (Num r) = Ok true <-> odd_int (Num r).
Proof.
  intro r. unfold emu_odd, int_eq, int_odd. cbn [py_int py_eq truth of_bool pand].
  destruct (Qeq_bool (inject_Z (qtrunc r)) r) eqn:E; cbn [of_bool truth pand]; bools.
  - destruct (Z.modulo (qtrunc r) 2 =? 1) eqn:E2; split; try reflexivity; try discriminate.
    + intros _. apply Z.eqb_eq in E2. exists r, (qtrunc r / 2). split; auto.
      rewrite <- E at 1. apply inj_eq. pose proof (Z.div_mod (qtrunc r) 2). lia.
    + intros (q & k & Hq & Hk). injection Hq as <-. rewrite (qtrunc_int _ _ Hk) in E2.
      rewrite Z.add_comm, Z.mul_comm, Z.mod_add in E2 by lia. discriminate E2.
  - split; [discriminate|]. intros (q & k & Hq & Hk). injection Hq as <-.
    exfalso. apply E. rewrite (qtrunc_int _ _ Hk). symmetry. auto.
Qed.
Lemma emu_odd_total : forall r, exists b, emu_odd (Num r) = Ok b.
Proof.
  intro r. unfold emu_odd, int_eq, int_odd. cbn [py_int py_eq].
  destruct (Qeq_bool (inject_Z (qtrunc r)) r); cbn [of_bool truth pand]; eauto.
Qed.

(* the value of the emulation *)
Definition emu_table (odd : bool) (x y : fpv) : emu :=
  match x, y with
  | SNaN, _ | _, SNaN => EVal QNaN
  | _, (PZero | MZero) => EVal (Num 1)
  | QNaN, _ => EExc
  | (PZero | MZero), MInf => EVal PInf
  | (PZero | MZero), PInf => EVal PZero
  | PZero, Num r => if Qle_bool 0 r then EVal PZero else EVal PInf
  | MZero, Num r => if Qle_bool 0 r then if odd then EVal MZero else EVal PZero
                    else if odd then EVal MInf else EVal PInf
  | (PZero | MZero | PInf | MInf), QNaN => EExc
  | Num q, QNaN => if Qeq_bool q 1 then EVal (Num 1) else ESollya
  | Num q, PInf => if Qeq_bool q (-1) then EVal (Num 1) else if Qeq_bool q 1 then EVal (Num 1) else
                   if qlt (-1) q && qlt q 1 then EVal PZero else EVal PInf
  | Num q, MInf => if Qeq_bool q (-1) then EVal (Num 1) else if Qeq_bool q 1 then EVal (Num 1) else
                   if qlt (-1) q && qlt q 1 then EVal PInf else EVal PZero
  | Num q, Num r => if Qeq_bool q 1 then EVal (Num 1) else ESollya
  | (PInf | MInf), PInf => EVal PInf
  | (PInf | MInf), MInf => EVal PZero
  | PInf, Num r => if Qle_bool 0 r then EVal PInf else EVal PZero
  | MInf, Num r => if Qle_bool 0 r then if odd then EVal MInf else EVal PInf
                   else if odd then EVal MZero else EVal PZero
  end.
Definition odd_b (y : fpv) : bool := match emu_odd y with Ok b => b | Err => false end.

Lemma lt_c_num : forall q c, lt_c (Num q) c = Ok (qlt q c).
Proof.
  intros. unfold lt_c, py_lt, number_less_than_special_value, is_zero. cbn.
  destruct (Qeq_bool c 0) eqn:E; cbn.
  - bools. unfold qlt. replace (Qle_bool 0 q) with (Qle_bool c q).
    + destruct (Qle_bool c q); reflexivity.
    + apply Bool.eq_true_iff_eq. rewrite !Qle_bool_iff. rewrite E. tauto.
  - unfold qlt. destruct (Qle_bool c q); reflexivity.
Qed.
Lemma gt_c_num : forall q c, gt_c (Num q) c = Ok (qlt c q).
Proof.
  intros. unfold gt_c, py_gt, number_less_than_special_value, is_zero. cbn.
  destruct (Qeq_bool q 0) eqn:E; cbn.
  - bools. unfold qlt. replace (Qle_bool 0 c) with (Qle_bool q c).
    + destruct (Qle_bool q c); reflexivity.
    + apply Bool.eq_true_iff_eq. rewrite !Qle_bool_iff. rewrite E. tauto.
  - unfold qlt. destruct (Qle_bool q c); reflexivity.
Qed.
Lemma eq_num : forall q c, truth (py_eq (Num q) (Num c)) = Ok (Qeq_bool q c).
Proof. intros. cbn. destruct (Qeq_bool q c); reflexivity. Qed.
Lemma is_zero_num : forall q, is_zero (Num q) = Qeq_bool q 0.
Proof. reflexivity. Qed.

Lemma pow_emulate_table : forall x y, canonical x -> canonical y ->
  pow_emulate x y = emu_table (odd_b y) x y.
Proof.
  intros x y Hx Hy. unfold pow_emulate, small, big.
  destruct y as [r| | | | | |]; cbn [canonical] in Hy;
    [assert (Qeq_bool r 0 = false) as Hz by (destruct (Qeq_bool r 0) eqn:E; auto; bools; tauto);
     assert (exists a b, int_eq (Num r) = Ok a /\ int_odd (Num r) = Ok b) as (a & b & Ha & Hb) by
      (unfold int_eq, int_odd; cbn [py_int]; rewrite eq_num; eauto);
     unfold odd_b, emu_odd; rewrite ?Ha, ?Hb, ?lt_c_num, ?gt_c_num, is_zero_num, Hz
    |..].
  all: destruct x as [q| | | | | |]; cbn [canonical] in Hx.
  all: try (assert (Qeq_bool q 0 = false) as Hz' by (destruct (Qeq_bool q 0) eqn:E; auto; bools; tauto);
            rewrite ?lt_c_num, ?gt_c_num, ?is_zero_num, ?eq_num, ?Hz').
  all: try reflexivity.
  all: cbn [py_snan is_plus_zero is_minus_zero is_zero num_is_zero special is_number is_infty is_plus_infty
            is_minus_infty negb orb andb pand por pnot pif emu_table is_zero] in *; try rewrite Hz';
       cbn [orb andb pand pif].
  all: try reflexivity.
  all: try (cbn; reflexivity).
  all: repeat match goal with
       | |- context [lt_c ?v ?c] => let x := eval vm_compute in (lt_c v c) in change (lt_c v c) with x
       | |- context [gt_c ?v ?c] => let x := eval vm_compute in (gt_c v c) in change (gt_c v c) with x
       | |- context [truth ?v] => let x := eval vm_compute in (truth v) in change (truth v) with x
       end.
  all: unfold qlt; qcases; cbn [pand por pnot pif orb andb negb].
  all: try destruct a, b; cbn [pand por pnot pif orb andb negb]; try reflexivity.
  all: bools; exfalso; try lra; try (apply Hy; lra).
  all: match goal with H : ~ _ |- _ => apply H; lra end.
Qed.

Lemma odd_b_spec : forall y, odd_b y = true <-> odd_int y.
Proof.
  intros [r| | | | | |]; try (split; [intro H; discriminate H|intros (? & ? & H & _); discriminate H]).
  unfold odd_b. rewrite <- emu_odd_num. destruct (emu_odd (Num r)) as [[]|]; split; congruence.
Qed.

Lemma qlt_iff : forall a b, qlt a b = true <-> (a < b)%Q.
Proof. intros. apply negb_qle. Qed.

(* C94: the emulation follows every clause whose operands are not quiet NaNs; the
   invalid operation is left to Sollya *)
Theorem pow_emulation_correct : forall x y v, canonical x -> canonical y ->
  ieee_pow x y v -> x <> QNaN -> (y = QNaN -> is_one x \/ x = SNaN) ->
  pow_emulate x y = EVal v \/
  (pow_emulate x y = ESollya /\ fneg x /\ ~ integral y).
Proof.
  intros x y v Hx Hy H Hn Hn2. pose proof (odd_b_spec y) as Ho. rewrite pow_emulate_table by auto.
  destruct H.
  - left. destruct H as [-> | ->]; [|destruct x]; reflexivity.
  - left. destruct H0 as [-> | ->]; destruct x; try reflexivity; congruence.
  - destruct H as (q & -> & Hq). left.
    assert (Qeq_bool q 1 = true) as E by (apply Qeq_bool_iff; auto).
    destruct y as [r| | | | | |]; cbn [emu_table]; rewrite ?E; try reflexivity; try congruence.
    all: destruct (Qeq_bool q (-1)); reflexivity.
  - congruence.
  - exfalso. destruct (Hn2 eq_refl); auto.
  - left. destruct H0 as (r & -> & Hr). cbn [emu_table]. qcases; bools; try reflexivity. lra.
  - left. destruct H0 as (r & -> & Hr). rewrite (proj2 Ho H). cbn [emu_table]. qcases; bools; try reflexivity. lra.
  - left. destruct H as [-> | ->]; reflexivity.
  - left. destruct (odd_b y) eqn:Eo; [tauto|]. destruct H0 as (r & -> & Hr).
    destruct H as [-> | ->]; cbn [emu_table]; qcases; bools; try reflexivity; lra.
  - left. destruct H as [-> | ->]; reflexivity.
  - left. rewrite (proj2 Ho H0). destruct H1 as (r & -> & Hr).
    destruct H as [-> | ->]; cbn [emu_table]; qcases; bools; try reflexivity; lra.
  - left. destruct (odd_b y) eqn:Eo; [tauto|]. destruct H0 as (r & -> & Hr).
    destruct H as [-> | ->]; cbn [emu_table]; qcases; bools; try reflexivity; lra.
  - left. destruct H0 as [-> | ->]; cbn [emu_table]; rewrite (proj2 (Qeq_bool_iff _ _) H); reflexivity.
  - left. destruct H as [[-> | ->]|(q & -> & Hq)]; try reflexivity.
    apply Qabs_Qlt_condition in Hq. cbn [emu_table].
    rewrite (proj2 (qlt_iff (-1) q)), (proj2 (qlt_iff q 1)) by lra.
    qcases; bools; try reflexivity; lra.
  - left. destruct H as [[-> | ->]|(q & -> & Hq)]; try reflexivity. cbn [emu_table].
    unfold qlt. qcases; bools; try reflexivity; exfalso;
    try (match goal with H : (q == _)%Q |- _ => rewrite H in Hq; discriminate Hq end);
    (assert (Qabs q < 1)%Q by (apply Qabs_Qlt_condition; split; lra)); lra.
  - left. destruct H as [[-> | ->]|(q & -> & Hq)]; try reflexivity.
    apply Qabs_Qlt_condition in Hq. cbn [emu_table].
    rewrite (proj2 (qlt_iff (-1) q)), (proj2 (qlt_iff q 1)) by lra.
    qcases; bools; try reflexivity; lra.
  - left. destruct H as [[-> | ->]|(q & -> & Hq)]; try reflexivity. cbn [emu_table].
    unfold qlt. qcases; bools; try reflexivity; exfalso;
    try (match goal with H : (q == _)%Q |- _ => rewrite H in Hq; discriminate Hq end);
    (assert (Qabs q < 1)%Q by (apply Qabs_Qlt_condition; split; lra)); lra.
  - left. destruct H as (r & -> & Hr). cbn [emu_table]. qcases; bools; try reflexivity. lra.
  - left. destruct H as (r & -> & Hr). cbn [emu_table]. qcases; bools; try reflexivity. lra.
  - left. rewrite (proj2 Ho H). destruct H0 as (r & -> & Hr). cbn [emu_table]. qcases; bools; try reflexivity. lra.
  - left. rewrite (proj2 Ho H). destruct H0 as (r & -> & Hr). cbn [emu_table]. qcases; bools; try reflexivity. lra.
  - left. destruct (odd_b y) eqn:Eo; [tauto|]. destruct H as (r & -> & Hr).
    cbn [emu_table]. qcases; bools; try reflexivity. lra.
  - left. destruct (odd_b y) eqn:Eo; [tauto|]. destruct H as (r & -> & Hr).
    cbn [emu_table]. qcases; bools; try reflexivity. lra.
  - right. destruct H as (q & -> & Hq), H0 as (r & ->). cbn [emu_table].
    destruct (Qeq_bool q 1) eqn:E; [bools; lra|]. split; auto. split; auto. exists q. auto.
Qed.

(* it raises exactly when a quiet NaN meets one of the comparisons *)
Theorem pow_emulation_raises_iff : forall x y, canonical x -> canonical y ->
  pow_emulate x y = EExc <->
  (x = QNaN /\ y <> SNaN /\ ~ is_zero_datum y) \/
  (y = QNaN /\ (is_zero_datum x \/ inf_datum x)).
Proof.
  intros x y Hx Hy. rewrite pow_emulate_table by auto. split.
  - destruct x as [q| | | | | |], y as [r| | | | | |]; cbn [emu_table]; intro H; try discriminate H;
      try (left; split; [reflexivity|split; [discriminate|intros [?|?]; discriminate]]);
      try (right; split; [reflexivity|specs; tauto]).
    all: repeat match type of H with
           | (if ?c then _ else _) = _ => destruct c; try discriminate H
           end.
  - intros [(-> & H1 & H2)|(-> & H)].
    + destruct y; try reflexivity; exfalso; specs; tauto.
    + destruct H as [[-> | ->]|[-> | ->]]; reflexivity.
Qed.

(* ---- rootn ---- *)
Lemma n_even_spec : forall n, n_is_even n = true <-> neven n.
Proof.
  intro n. unfold n_is_even, neven. rewrite Z.eqb_eq. split.
  - intro H. exists (Z.quot n 2). pose proof (Z.quot_rem' n 2). lia.
  - intros (k & ->). rewrite Z.mul_comm. apply Z.rem_mul. lia.
Qed.
Lemma n_odd_spec : forall n, n_is_even n = false <-> nodd n.
Proof.
  intro n. split.
  - intro H. destruct (Z.Even_or_Odd n) as [[k Hk]|[k Hk]].
    + assert (n_is_even n = true) by (apply n_even_spec; exists k; auto). congruence.
    + exists k. auto.
  - intros (k & Hk). destruct (n_is_even n) eqn:E; auto. apply n_even_spec in E. destruct E as (j & Hj). lia.
Qed.

Theorem rootn_special_cases : forall x n v, canonical x -> ocl_rootn x n v ->
  rootn_scheme x n = RRet v
  \/ (rootn_scheme x n = RNumeric /\ is_zero_datum x /\ nodd n /\ 1 < n)
  \/ (x = MZero /\ neven n /\ 0 < n).
Proof.
  intros x n v Hx H. pose proof (n_even_spec n) as He. pose proof (n_odd_spec n) as Ho.
  unfold rootn_scheme.
  destruct H.
  - left. destruct H as [-> | ->]; reflexivity.
  - left. rewrite Z.eqb_refl, orb_true_r. reflexivity.
  - left. rewrite (proj2 He H0). destruct H as [(q & -> & Hq)| ->].
    + cbn [t_nan c_lt zero orb andb]. rewrite (proj2 (negb_qle _ _) Hq), orb_true_r. reflexivity.
    + cbn [t_nan c_lt zero orb andb]. rewrite orb_true_r. reflexivity.
  - left. cbn [t_nan c_lt zero orb andb t_inf t_pinf t_minf].
    rewrite (proj2 (Z.eqb_neq n 0)), (proj2 (Z.eqb_neq n (-1))), (proj2 (Z.ltb_ge n 0)) by lia.
    rewrite andb_false_r. reflexivity.
  - left. cbn [t_nan c_lt zero orb andb t_inf t_pinf t_minf recip].
    rewrite (proj2 (Z.eqb_neq n 0)), (proj2 (Z.ltb_lt n 0)) by lia.
    rewrite andb_false_r. cbn [orb]. destruct (n =? -1); reflexivity.
  - left. rewrite (proj2 Ho H). cbn [t_nan c_lt zero orb andb t_inf t_pinf t_minf recip].
    rewrite (proj2 (Z.eqb_neq n 0)), (proj2 (Z.eqb_neq n (-1))), (proj2 (Z.ltb_ge n 0)) by lia.
    reflexivity.
  - left. rewrite (proj2 Ho H). cbn [t_nan c_lt zero orb andb t_inf t_pinf t_minf recip].
    rewrite (proj2 (Z.eqb_neq n 0)), (proj2 (Z.ltb_lt n 0)) by lia.
    cbn [orb]. destruct (n =? -1); reflexivity.
  - left. rewrite (proj2 Ho H). cbn [t_nan c_lt c_eq zero orb andb negb t_inf t_pinf t_minf t_pzero recip].
    rewrite (proj2 (Z.eqb_neq n 0)), (proj2 (Z.ltb_lt n 0)) by lia.
    cbn [orb andb]. destruct (n =? -1); reflexivity.
  - left. rewrite (proj2 Ho H). cbn [t_nan c_lt c_eq zero orb andb negb t_inf t_pinf t_minf t_pzero recip].
    rewrite (proj2 (Z.eqb_neq n 0)), (proj2 (Z.ltb_lt n 0)) by lia.
    cbn [orb andb]. destruct (n =? -1); reflexivity.
  - left. rewrite (proj2 He H0). destruct H0 as (k & Hk).
    rewrite (proj2 (Z.eqb_neq n 0)), (proj2 (Z.eqb_neq n (-1))), (proj2 (Z.ltb_lt n 0)) by lia.
    destruct H as [-> | ->]; reflexivity.
  - destruct H as [-> | ->]; [left|right; right; auto].
    rewrite (proj2 He H0). destruct H0 as (k & Hk).
    rewrite (proj2 (Z.eqb_neq n 0)), (proj2 (Z.eqb_neq n (-1))), (proj2 (Z.ltb_ge n 0)) by lia.
    reflexivity.
  - rewrite (proj2 Ho H0). destruct (Z.eq_dec n 1) as [->|].
    + left. destruct H as [-> | ->]; reflexivity.
    + right. left. split; [|split; [auto|split; [auto|lia]]].
      rewrite (proj2 (Z.eqb_neq n 0)), (proj2 (Z.eqb_neq n (-1))), (proj2 (Z.ltb_ge n 0)), (proj2 (Z.eqb_neq n 1)) by lia.
      destruct H as [-> | ->]; reflexivity.
Qed.

(* -0 with a positive even n: the code returns -0, the clause says +0 *)
Theorem rootn_even_negzero_refuted : forall n, neven n -> 0 < n ->
  rootn_scheme MZero n = RRet MZero /\ ocl_rootn MZero n PZero.
Proof.
  intros n He Hn. split; [|apply OR_zero_evenpos; auto; right; auto].
  unfold rootn_scheme. rewrite (proj2 (n_even_spec n) He). destruct He as (k & Hk).
  rewrite (proj2 (Z.eqb_neq n 0)), (proj2 (Z.eqb_neq n (-1))), (proj2 (Z.ltb_ge n 0)) by lia.
  reflexivity.
Qed.

(* finite nonzero x: the invalid cases are caught, the others reach the formula
   with the right sign *)
Theorem rootn_finite : forall q n, ~ (q == 0)%Q -> n <> 0 ->
  (rootn_scheme (Num q) n = RRet QNaN <-> (q < 0)%Q /\ neven n) /\
  (~ ((q < 0)%Q /\ neven n) ->
     rootn_scheme (Num q) n = (if n =? -1 then RInv else if n =? 1 then RRet (Num q) else RNumeric) /\
     (rootn_sign (Num q) n = true <-> (q < 0)%Q)).
Proof.
  intros q n Hq Hn. pose proof (n_even_spec n) as He. pose proof (n_odd_spec n) as Ho.
  unfold rootn_scheme, rootn_sign. cbn [t_nan c_lt c_eq zero orb andb negb t_inf t_pinf t_minf recip].
  rewrite (proj2 (Z.eqb_neq n 0) Hn).
  assert (Qeq_bool q 0 = false) as Ez by (destruct (Qeq_bool q 0) eqn:E; auto; bools; tauto). rewrite Ez.
  rewrite !andb_false_r. cbn [orb].
  destruct (n_is_even n) eqn:E; destruct (Qle_bool 0 q) eqn:E2; cbn [andb orb negb]; bools.
  - split; [split; [|intros [? _]; lra]|intros _; split; [reflexivity|split; [discriminate|intro; lra]]].
    destruct (n =? -1); [discriminate|]. destruct (n =? 1); discriminate.
  - split; [split; [|reflexivity]|intro Hc; exfalso; apply Hc]; tauto.
  - split; [split; [|intros [? _]; lra]|intros _; split; [reflexivity|split; [discriminate|intro; lra]]].
    destruct (n =? -1); [discriminate|]. destruct (n =? 1); discriminate.
  - split; [split; [|intros [_ Hc]; apply He in Hc; discriminate Hc]|intros _; split; [reflexivity|tauto]].
    destruct (n =? -1); [discriminate|]. destruct (n =? 1); discriminate.
Qed.

(* ---- the emulation of rootn ---- *)
Lemma mod_even : forall n, (Z.modulo n 2 =? 0) = true <-> neven n.
Proof.
  intro n. rewrite Z.eqb_eq. split.
  - intro H. exists (n / 2). pose proof (Z.div_mod n 2). lia.
  - intros (k & ->). rewrite Z.mul_comm. apply Z.mod_mul. lia.
Qed.
Lemma mod_odd : forall n, (Z.modulo n 2 =? 1) = true <-> nodd n.
Proof.
  intro n. rewrite Z.eqb_eq. split.
  - intro H. exists (n / 2). pose proof (Z.div_mod n 2). lia.
  - intros (k & ->). rewrite Z.add_comm, Z.mul_comm, Z.mod_add by lia. reflexivity.
Qed.
Lemma even_not_odd : forall n, neven n -> nodd n -> False.
Proof. intros n (k & Hk) (j & Hj). lia. Qed.

Theorem rootn_emulation_correct : forall x n v, canonical x -> ocl_rootn x n v ->
  ~ (x = PInf /\ n <= 0) -> ~ (x = MInf /\ nodd n /\ n < 0) -> ~ (is_zero_datum x /\ nodd n /\ 0 < n) ->
  ~ (n = 0 /\ fpos x) -> rootn_emulate x n = RVal v.
Proof.
  intros x n v Hx H N1 N2 N3 N4. pose proof (mod_even n) as He. pose proof (mod_odd n) as Ho.
  destruct H; unfold rootn_emulate.
  - destruct H as [-> | ->]; reflexivity.
  - destruct x as [q| | | | | |]; try reflexivity.
    + cbn [canonical] in Hx. destruct (Qle_bool 0 q) eqn:E; cbn [negb]; bools.
      * exfalso. apply N4. split; auto. exists q. split; auto.
        destruct (Qlt_le_dec 0 q); auto. exfalso. apply Hx. lra.
      * reflexivity.
    + exfalso. apply N1. split; [reflexivity|lia].
  - destruct H as [(q & -> & Hq)| ->].
    + rewrite (proj2 (negb_qle _ _) Hq), (proj2 He H0). reflexivity.
    + destruct (Z.modulo n 2 =? 1) eqn:E; auto. exfalso. apply (even_not_odd n); tauto.
  - reflexivity.
  - exfalso. apply N1. split; [reflexivity|lia].
  - rewrite (proj2 Ho H). reflexivity.
  - exfalso. apply N2. auto.
  - destruct (Z.modulo n 2 =? 0) eqn:E; [exfalso; apply (even_not_odd n); tauto|].
    rewrite (proj2 (Z.ltb_lt n 0)) by lia. reflexivity.
  - destruct (Z.modulo n 2 =? 0) eqn:E; [exfalso; apply (even_not_odd n); tauto|].
    rewrite (proj2 (Z.ltb_lt n 0)) by lia. reflexivity.
  - rewrite (proj2 He H0), (proj2 (Z.ltb_lt n 0)) by lia. destruct H as [-> | ->]; reflexivity.
  - rewrite (proj2 He H0), (proj2 (Z.ltb_ge n 0)), (proj2 (Z.ltb_lt 0 n)) by lia.
    destruct H as [-> | ->]; reflexivity.
  - exfalso. apply N3. auto.
Qed.
(* and each of the four exclusions is a wrong answer *)
Theorem rootn_emulation_refuted :
  (forall n, n < 0 -> rootn_emulate PInf n = RVal PInf /\ ocl_rootn PInf n PZero) /\
  (rootn_emulate PInf 0 = RVal PInf /\ ocl_rootn PInf 0 QNaN) /\
  (forall n, nodd n -> n < 0 -> rootn_emulate MInf n = RVal MInf /\ ocl_rootn MInf n MZero) /\
  (forall x n, is_zero_datum x -> nodd n -> 0 < n -> rootn_emulate x n = RVal QNaN /\ ocl_rootn x n x) /\
  (forall q, (0 < q)%Q -> rootn_emulate (Num q) 0 = RMpfr false /\ ocl_rootn (Num q) 0 QNaN).
Proof.
  split; [|split; [|split; [|split]]].
  - intros n Hn. split; [reflexivity|]. apply OR_pinf_neg. auto.
  - split; [reflexivity|apply OR_n0].
  - intros n Ho Hn. split; [|apply OR_minf_neg; auto]. unfold rootn_emulate.
    rewrite (proj2 (mod_odd n) Ho). reflexivity.
  - intros x n Hx Ho Hn. split; [|apply OR_zero_oddpos; auto]. unfold rootn_emulate.
    destruct (Z.modulo n 2 =? 0) eqn:E; [exfalso; apply (even_not_odd n); auto; apply mod_even; auto|].
    rewrite (proj2 (Z.ltb_ge n 0)) by lia. destruct Hx as [-> | ->]; reflexivity.
  - intros q Hq. split; [|apply OR_n0]. unfold rootn_emulate.
    assert (Qle_bool 0 q = true) as -> by (apply Qle_bool_iff; lra). reflexivity.
Qed.


(* on finite nonzero data the emulation takes the root of |x| with the sign of the root *)
Theorem rootn_emulation_sign : forall q n, ~ (q == 0)%Q ->
  (neven n -> (q < 0)%Q -> rootn_emulate (Num q) n = RVal QNaN) /\
  (neven n -> (0 < q)%Q -> rootn_emulate (Num q) n = RMpfr false) /\
  (nodd n -> exists s, rootn_emulate (Num q) n = RMpfr s /\
     forall r, (Qpower r n == q)%Q -> (r < 0)%Q <-> s = true).
Proof.
  intros q n Hq. unfold rootn_emulate. split; [|split].
  - intros He Hn. rewrite (proj2 (negb_qle _ _) Hn), (proj2 (mod_even n) He). reflexivity.
  - intros He Hn. assert (Qle_bool 0 q = true) as -> by (apply Qle_bool_iff; lra). reflexivity.
  - intros Ho. assert ((Z.modulo n 2 =? 0) = false) as Em.
    { destruct (Z.modulo n 2 =? 0) eqn:E; auto. exfalso. apply (even_not_odd n); auto. apply mod_even; auto. }
    rewrite Em. exists (negb (Qle_bool 0 q)).
    split; [destruct (Qle_bool 0 q); reflexivity|].
    intros r Hr. rewrite negb_qle. destruct Ho as (k & ->).
    destruct (Qeq_dec r 0) as [E0|E0].
    + exfalso. apply Hq. rewrite <- Hr, E0. apply Qpower_0. lia.
    + rewrite Qpower_plus in Hr by exact E0. rewrite Z.mul_comm, Qpower_mult in Hr.
      change (Qpower r 1)%Q with r in Hr. change (Qpower (Qpower r k) 2) with (Qpower r k * Qpower r k)%Q in Hr.
      assert (~ Qpower r k == 0)%Q as Hp by (apply Qpower_not_0; exact E0).
      set (t := Qpower r k) in *.
      assert (0 < t * t)%Q as Ht by nra.
      rewrite <- Hr. split; intro; nra.
Qed.
