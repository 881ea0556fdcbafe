(* Elementary floating-point theory: what round-to-nearest does to sums and
   products of format numbers.  Everything holds for every precision >= 2,
   every smallest exponent and every tie-breaking rule. *)
From Coq Require Import ZArith QArith Qround Qabs Lia Lqa Setoid.
From Verif Require Import QUtil RoundSpec.
Open Scope Z_scope.

Lemma Qabs_le_iff : forall x y, (Qabs x <= y)%Q <-> (- y <= x)%Q /\ (x <= y)%Q.
Proof. intros. rewrite Qabs_Qle_condition. tauto. Qed.

Ltac qabs :=
  repeat match goal with
  | |- context [Qabs ?x] =>
      let H := fresh "Ha" in
      assert (H : ((0 <= x)%Q /\ (Qabs x == x)%Q) \/ ((x <= 0)%Q /\ (Qabs x == - x)%Q))
        by (destruct (Qlt_le_dec x 0); [right; split; [lra | apply Qabs_neg; lra] | left; split; [lra| apply Qabs_pos; lra]]);
      let q := fresh "q" in set (q := Qabs x) in *; clearbody q
  | K : context [Qabs ?x] |- _ =>
      let H := fresh "Ha" in
      assert (H : ((0 <= x)%Q /\ (Qabs x == x)%Q) \/ ((x <= 0)%Q /\ (Qabs x == - x)%Q))
        by (destruct (Qlt_le_dec x 0); [right; split; [lra | apply Qabs_neg; lra] | left; split; [lra| apply Qabs_pos; lra]]);
      let q := fresh "q" in set (q := Qabs x) in *; clearbody q
  end.

Ltac qabs_lra := qabs; repeat match goal with H : _ \/ _ |- _ => destruct H as [[? ?]|[? ?]] end; lra.

Lemma Qabs_mul_pos : forall a q, (0 < q)%Q -> (Qabs (a * q) == Qabs a * q)%Q.
Proof. intros a q H. rewrite Qabs_Qmult, (Qabs_pos q) by lra. reflexivity. Qed.

Lemma mult_comp : forall e x y, (x == y)%Q -> mult e x -> mult e y.
Proof. intros e x y E [k Hk]. exists k. rewrite <- E. exact Hk. Qed.

Lemma mult_0 : forall e, mult e 0.
Proof. intros. exists 0. ring. Qed.

Lemma mult_plus : forall e x y, mult e x -> mult e y -> mult e (x + y).
Proof. intros e x y [a Ha] [b Hb]. exists (a + b). rewrite Ha, Hb, inject_Z_plus. ring. Qed.

Lemma mult_opp : forall e x, mult e x -> mult e (- x).
Proof. intros e x [a Ha]. exists (- a). rewrite Ha, inject_Z_opp. ring. Qed.

Lemma mult_minus : forall e x y, mult e x -> mult e y -> mult e (x - y).
Proof. intros. apply mult_plus; auto. apply mult_opp; auto. Qed.

Lemma mult_le : forall e e' x, e' <= e -> mult e x -> mult e' x.
Proof.
  intros e e' x H [k Hk]. exists (k * 2 ^ (e - e')).
  rewrite Hk, inject_Z_mult, <- p2_Z by lia.
  replace e with ((e - e') + e') at 1 by lia. rewrite p2_plus. ring.
Qed.

Lemma mult_p2 : forall e e', e <= e' -> mult e (p2 e').
Proof. intros. apply (mult_le e'); auto. exists 1. change (inject_Z 1) with 1%Q. ring. Qed.

(* multiples are at least 2^e apart *)
Lemma mult_lt_le : forall e x k, mult e x -> (x < inject_Z (k + 1) * p2 e)%Q -> (x <= inject_Z k * p2 e)%Q.
Proof.
  intros e x k [j Hj] H. rewrite Hj in *. pose proof (p2_pos e).
  assert (inject_Z j < inject_Z (k + 1))%Q.
  { destruct (Qlt_le_dec (inject_Z j) (inject_Z (k + 1))) as [|C]; auto. exfalso.
    assert (inject_Z (k + 1) * p2 e <= inject_Z j * p2 e)%Q by (apply Qmult_le_compat_r; lra). lra. }
  rewrite <- Zlt_Qlt in H1. apply Qmult_le_compat_r; [|lra]. rewrite <- Zle_Qle. lia.
Qed.

Lemma mult_abs : forall e x, mult e x -> mult e (Qabs x).
Proof.
  intros e x H. destruct (Qlt_le_dec x 0).
  - apply (mult_comp _ (- x)); [rewrite Qabs_neg by lra; reflexivity|]. apply mult_opp; auto.
  - apply (mult_comp _ x); [rewrite Qabs_pos by lra; reflexivity|]. auto.
Qed.

Lemma mult_small : forall e x, mult e x -> (Qabs x < p2 e)%Q -> (x == 0)%Q.
Proof.
  intros e x H L. pose proof (mult_lt_le e (Qabs x) 0 (mult_abs _ _ H)) as K.
  change (inject_Z (0 + 1)) with 1%Q in K. change (inject_Z 0) with 0%Q in K.
  assert (Qabs x <= 0)%Q by (assert (Qabs x <= 0 * p2 e)%Q by (apply K; lra); lra).
  qabs_lra.
Qed.

(* a nonzero multiple is at least 2^e *)
Lemma mult_nz : forall e x, mult e x -> ~ (x == 0)%Q -> (p2 e <= Qabs x)%Q.
Proof.
  intros e x H N. destruct (Qlt_le_dec (Qabs x) (p2 e)) as [C|]; auto.
  exfalso. apply N. apply (mult_small e); auto.
Qed.

Lemma p2_prec : forall p e, 0 <= p -> (inject_Z (2 ^ p) * p2 e == p2 (p + e))%Q.
Proof. intros. rewrite p2_plus, (p2_Z p) by auto. reflexivity. Qed.

Section Fmt.
Variable F : fmt.
Notation p := (prec F).
Hypothesis Hp : 1 <= p.

Lemma exp_ok_le : forall e e', e <= e' -> exp_ok F e -> exp_ok F e'.
Proof. unfold exp_ok. intros. destruct (emin F); auto; lia. Qed.

Lemma exp_ok_min : forall a b, exp_ok F a -> exp_ok F b -> exp_ok F (Z.min a b).
Proof. unfold exp_ok. intros. destruct (emin F); auto; lia. Qed.

Lemma inF_comp : forall x y, (x == y)%Q -> inF F x -> inF F y.
Proof. intros x y E (m & e & Hx & H). exists m, e. rewrite <- E. auto. Qed.

Lemma inF_intro : forall e x, mult e x -> exp_ok F e -> (Qabs x <= p2 (p + e))%Q -> inF F x.
Proof.
  intros e x [k Hk] Ho H. exists k, e. split; auto. split; auto.
  rewrite Hk in H. rewrite Qabs_Qmult in H. rewrite (Qabs_pos (p2 e)) in H by (pose proof (p2_pos e); lra).
  rewrite <- p2_prec in H by lia. apply Qmult_lt_0_le_reg_r in H; [|apply p2_pos].
  change (Qabs (inject_Z k)) with (inject_Z (Z.abs k)) in H. rewrite <- Zle_Qle in H. exact H.
Qed.

Lemma inF_elim : forall x, inF F x -> exists e, mult e x /\ exp_ok F e /\ (Qabs x <= p2 (p + e))%Q.
Proof.
  intros x (m & e & Hx & Hm & He). exists e. split; [exists m; auto|]. split; auto.
  rewrite Hx, Qabs_Qmult, (Qabs_pos (p2 e)) by (pose proof (p2_pos e); lra).
  rewrite <- p2_prec by lia. apply Qmult_le_compat_r; [|pose proof (p2_pos e); lra].
  change (Qabs (inject_Z m)) with (inject_Z (Z.abs m)). rewrite <- Zle_Qle. exact Hm.
Qed.

Lemma inF_0 : inF F 0.
Proof.
  set (e := match emin F with None => 0 | Some k => k end).
  apply (inF_intro e); [apply mult_0| |].
  - unfold exp_ok, e. destruct (emin F); lia.
  - change (Qabs 0) with 0%Q. pose proof (p2_pos (p + e)). lra.
Qed.

Lemma inF_opp : forall x, inF F x -> inF F (- x).
Proof.
  intros x H. destruct (inF_elim x H) as (e & M & O & B).
  apply (inF_intro e); auto; [apply mult_opp; auto|]. rewrite Qabs_opp. auto.
Qed.

Lemma inF_opp_inv : forall x, inF F (- x) -> inF F x.
Proof. intros x H. apply (inF_comp (- - x)); [ring|]. apply inF_opp; auto. Qed.

Lemma inF_p2 : forall e, exp_ok F e -> inF F (p2 (p + e)).
Proof.
  intros e O. apply (inF_intro e); auto; [apply mult_p2; lia|].
  rewrite Qabs_pos by (pose proof (p2_pos (p + e)); lra). lra.
Qed.

(* a number of the format above 2^(p+e-1) is a multiple of 2^e *)
Lemma inF_big : forall e x, inF F x -> (p2 (p + e - 1) < Qabs x)%Q -> mult e x.
Proof.
  intros e x H L. destruct (inF_elim x H) as (f & M & O & B).
  apply (mult_le f); auto.
  destruct (Z.le_gt_cases e f); auto. exfalso.
  pose proof (p2_le (p + f) (p + e - 1) ltac:(lia)). lra.
Qed.

(* canonical exponent: either the smallest one, or the significand is full *)
Lemma inF_canonical : forall x, inF F x ->
  exists e, mult e x /\ exp_ok F e /\ (Qabs x < p2 (p + e))%Q
            /\ ((x == 0)%Q \/ emin F = Some e \/ (p2 (p + e - 1) <= Qabs x)%Q).
Proof.
  intros x H. destruct (inF_elim x H) as (e & M & O & B).
  destruct (Qeq_dec x 0) as [Z|N].
  { exists e. split; auto. split; auto. split; [|left; auto]. rewrite Z. change (Qabs 0) with 0%Q. apply p2_pos. }
  assert (Hpos : (0 < Qabs x)%Q) by (qabs_lra).
  pose proof (qlog2_spec _ Hpos) as [L1 L2].
  set (l := qlog2 (Qabs x)) in *.
  (* l - p + 1 is the full exponent *)
  set (c := match emin F with None => l - p + 1 | Some k => Z.max (l - p + 1) k end).
  assert (Oc : exp_ok F c) by (unfold exp_ok, c; destruct (emin F); lia).
  assert (lc : l < p + c) by (unfold c; destruct (emin F); lia).
  assert (lpe : l <= p + e).
  { destruct (Z.le_gt_cases l (p + e)); auto. exfalso.
    pose proof (p2_lt (p + e) l ltac:(lia)). lra. }
  exists c. split; [|split; [auto|split]].
  - destruct (Z.le_gt_cases c e); [apply (mult_le e); auto|].
    (* c > e: l = p + e, x = +-2^(p+e) *)
    assert (Hle : l = p + e).
    { unfold c in H0. unfold exp_ok in O. destruct (emin F); lia. }
    assert (Ex : (Qabs x == p2 (p + e))%Q) by (rewrite Hle in L1; lra).
    assert (Hc : c <= p + e) by (unfold c, exp_ok in *; destruct (emin F); lia).
    destruct (Qlt_le_dec x 0).
    + rewrite Qabs_neg in Ex by lra. apply (mult_comp _ (- p2 (p + e))); [lra|].
      apply mult_opp, mult_p2; auto.
    + rewrite Qabs_pos in Ex by lra. apply (mult_comp _ (p2 (p + e))); [lra|]. apply mult_p2; auto.
  - pose proof (p2_le (l + 1) (p + c) ltac:(lia)). lra.
  - right. unfold c. unfold c in *. destruct (emin F) as [k|]; cbn.
    + destruct (Z.le_gt_cases (l - p + 1) k).
      * left. rewrite Z.max_r by lia. reflexivity.
      * right. rewrite Z.max_l by lia. replace (p + (l - p + 1) - 1) with l by lia. exact L1.
    + right. replace (p + (l - p + 1) - 1) with l by lia. exact L1.
Qed.

Variable rnd : Q -> Q.
Hypothesis Hr : nearest_in F rnd.

Lemma rnd_comp : forall x y, (x == y)%Q -> (rnd x == rnd y)%Q.
Proof. exact (proj1 Hr). Qed.

Lemma rnd_inF : forall x, inF F (rnd x).
Proof. exact (proj1 (proj2 Hr)). Qed.

Lemma rnd_near : forall x f, inF F f -> (Qabs (rnd x - x) <= Qabs (f - x))%Q.
Proof. exact (proj2 (proj2 Hr)). Qed.

Lemma rnd_id : forall x, inF F x -> (rnd x == x)%Q.
Proof.
  intros x H. pose proof (rnd_near x x H) as K.
  setoid_replace (x - x)%Q with 0%Q in K by ring. change (Qabs 0) with 0%Q in K.
  qabs_lra.
Qed.

Lemma rnd_lt_mono : forall x y, (x < y)%Q -> (rnd x <= rnd y)%Q.
Proof.
  intros x y H. destruct (Qlt_le_dec (rnd y) (rnd x)) as [C|]; auto. exfalso.
  pose proof (rnd_near x (rnd y) (rnd_inF y)). pose proof (rnd_near y (rnd x) (rnd_inF x)).
  qabs_lra.
Qed.

Lemma rnd_mono : forall x y, (x <= y)%Q -> (rnd x <= rnd y)%Q.
Proof.
  intros x y H. destruct (Qlt_le_dec x y) as [L|L]; [apply rnd_lt_mono; auto|].
  rewrite (rnd_comp x y) by lra. lra.
Qed.

Lemma rnd_le_F : forall x f, inF F f -> (x <= f)%Q -> (rnd x <= f)%Q.
Proof. intros x f H L. rewrite <- (rnd_id f H). apply rnd_mono; auto. Qed.

Lemma rnd_ge_F : forall x f, inF F f -> (f <= x)%Q -> (f <= rnd x)%Q.
Proof. intros x f H L. rewrite <- (rnd_id f H). apply rnd_mono; auto. Qed.

Lemma rnd_abs_le_F : forall x f, inF F f -> (Qabs x <= f)%Q -> (Qabs (rnd x) <= f)%Q.
Proof.
  intros x f H L. apply Qabs_le_iff in L. apply Qabs_le_iff. split.
  - apply rnd_ge_F; [apply inF_opp; auto|tauto].
  - apply rnd_le_F; tauto.
Qed.

Lemma rnd_abs_ge_F : forall x f, inF F f -> (0 <= f)%Q -> (f <= Qabs x)%Q -> (f <= Qabs (rnd x))%Q.
Proof.
  intros x f H P L. destruct (Qlt_le_dec x 0).
  - assert (x <= - f)%Q by qabs_lra.
    assert (rnd x <= - f)%Q by (apply rnd_le_F; [apply inF_opp|]; auto). qabs_lra.
  - assert (f <= x)%Q by qabs_lra.
    assert (f <= rnd x)%Q by (apply rnd_ge_F; auto). qabs_lra.
Qed.

(* rounding keeps multiples *)
Lemma rnd_mult : forall e x, exp_ok F e -> mult e x -> mult e (rnd x).
Proof.
  intros e x O M. destruct (Qlt_le_dec (p2 (p + e)) (Qabs x)) as [B|S].
  - apply inF_big; [apply rnd_inF|].
    pose proof (rnd_abs_ge_F x (p2 (p + e)) (inF_p2 e O) ltac:(pose proof (p2_pos (p+e)); lra) ltac:(lra)).
    pose proof (p2_lt (p + e - 1) (p + e) ltac:(lia)). lra.
  - apply (mult_comp _ x); auto. symmetry. apply rnd_id. apply (inF_intro e); auto.
Qed.

(* distance to the nearest number: half a unit 2^e when |x| <= 2^(p+e) *)
Lemma rnd_half : forall e x, exp_ok F e -> (Qabs x <= p2 (p + e))%Q -> (Qabs (rnd x - x) <= p2 (e - 1))%Q.
Proof.
  intros e x O B. pose proof (p2_pos e) as Pe.
  set (z := qrne (x / p2 e)). pose proof (qrne_half (x / p2 e)) as Hh. fold z in Hh.
  assert (Ex : (x == (x / p2 e) * p2 e)%Q) by (field; apply p2_nz).
  assert (E2 : (2 * p2 (e - 1) == p2 e)%Q) by (rewrite <- p2_succ; replace (e - 1 + 1) with e by lia; reflexivity).
  assert (Hz : Z.abs z <= 2 ^ p).
  { assert (Hq : (- inject_Z (2 ^ p) <= x / p2 e)%Q /\ (x / p2 e <= inject_Z (2 ^ p))%Q).
    { apply Qabs_le_iff. apply (Qmult_lt_0_le_reg_r _ _ (p2 e)); auto.
      rewrite p2_prec by lia. rewrite <- Qabs_mul_pos, <- Ex by auto. exact B. }
    destruct Hq as [Q1 Q2]. pose proof (qrne_bounds_int _ _ Q2).
    rewrite <- inject_Z_opp in Q1. pose proof (qrne_bounds_int_l _ _ Q1). fold z in H, H0. lia. }
  assert (HF : inF F (inject_Z z * p2 e)) by (exists z, e; split; [reflexivity|auto]).
  pose proof (rnd_near x _ HF) as K.
  assert (Qabs (inject_Z z * p2 e - x) == Qabs (inject_Z z - x / p2 e) * p2 e)%Q.
  { rewrite <- Qabs_mul_pos by auto. apply Qabs_wd. rewrite Ex at 1. ring. }
  assert (Qabs (inject_Z z - x / p2 e) * p2 e <= (1 # 2) * p2 e)%Q by (apply Qmult_le_compat_r; lra).
  lra.
Qed.

(* the same when there is no lower bound from the exponent: relative error *)
Lemma rnd_rel : forall x, emin F = None -> (Qabs (rnd x - x) <= p2 (- p) * Qabs x)%Q.
Proof.
  intros x Hn. destruct (Qeq_dec x 0) as [Z|N].
  { pose proof (rnd_near x 0 inF_0) as H. setoid_replace (0 - x)%Q with 0%Q in H by lra.
    assert (E : (Qabs x == 0)%Q) by (rewrite Z; reflexivity). rewrite E.
    change (Qabs 0) with 0%Q in *. lra. }
  assert (Hpos : (0 < Qabs x)%Q) by qabs_lra.
  pose proof (qlog2_spec _ Hpos) as [L1 L2]. set (l := qlog2 (Qabs x)) in *.
  assert (O : exp_ok F (l + 1 - p)) by (unfold exp_ok; rewrite Hn; auto).
  pose proof (rnd_half (l + 1 - p) x O) as K.
  replace (p + (l + 1 - p)) with (l + 1) in K by lia. specialize (K ltac:(lra)).
  replace (l + 1 - p - 1) with (- p + l) in K by lia. rewrite p2_plus in K.
  assert (p2 (- p) * p2 l <= p2 (- p) * Qabs x)%Q.
  { rewrite !(Qmult_comm (p2 (- p))). apply Qmult_le_compat_r; auto. pose proof (p2_pos (- p)); lra. }
  lra.
Qed.

(* addition: same bound even with gradual underflow *)
Lemma sum_rel : forall a b, inF F a -> inF F b ->
  (Qabs (rnd (a + b) - (a + b)) <= p2 (- p) * Qabs (a + b))%Q.
Proof.
  intros a b Ha Hb.
  destruct (inF_elim a Ha) as (ea & Ma & Oa & _). destruct (inF_elim b Hb) as (eb & Mb & Ob & _).
  set (e := Z.min ea eb). assert (O : exp_ok F e) by (apply exp_ok_min; auto).
  assert (M : mult e (a + b)) by (apply mult_plus; [apply (mult_le ea)|apply (mult_le eb)]; auto; lia).
  set (x := (a + b)%Q) in *.
  destruct (Qlt_le_dec (p2 (p + e)) (Qabs x)) as [B|S].
  - assert (Hpos : (0 < Qabs x)%Q) by (pose proof (p2_pos (p + e)); lra).
    pose proof (qlog2_spec _ Hpos) as [L1 L2]. set (l := qlog2 (Qabs x)) in *.
    assert (p + e < l + 1) by (apply p2_lt_inv; lra).
    assert (O' : exp_ok F (l + 1 - p)) by (apply (exp_ok_le e); auto; lia).
    pose proof (rnd_half (l + 1 - p) x O') as K.
    replace (p + (l + 1 - p)) with (l + 1) in K by lia. specialize (K ltac:(lra)).
    replace (l + 1 - p - 1) with (- p + l) in K by lia. rewrite p2_plus in K.
    assert (p2 (- p) * p2 l <= p2 (- p) * Qabs x)%Q.
    { rewrite !(Qmult_comm (p2 (- p))). apply Qmult_le_compat_r; auto. pose proof (p2_pos (- p)); lra. }
    lra.
  - rewrite (rnd_id x) by (apply (inF_intro e); auto).
    setoid_replace (x - x)%Q with 0%Q by ring. change (Qabs 0) with 0%Q.
    pose proof (p2_pos (- p)). pose proof (Qabs_nonneg x). nra.
Qed.

(* the error of a rounded sum is a number of the format *)
Lemma sum_error_F : forall a b, inF F a -> inF F b -> inF F (a + b - rnd (a + b)).
Proof.
  intros a b Ha Hb.
  destruct (inF_elim a Ha) as (ea & Ma & Oa & Ba). destruct (inF_elim b Hb) as (eb & Mb & Ob & Bb).
  pose proof (rnd_near (a + b) a Ha) as Na. pose proof (rnd_near (a + b) b Hb) as Nb.
  destruct (Z.le_gt_cases ea eb).
  - assert (M : mult ea (a + b)) by (apply mult_plus; auto; apply (mult_le eb); auto).
    apply (inF_intro ea); auto; [apply mult_minus; auto; apply rnd_mult; auto|].
    qabs_lra.
  - assert (M : mult eb (a + b)) by (apply mult_plus; auto; apply (mult_le ea); auto; lia).
    apply (inF_intro eb); auto; [apply mult_minus; auto; apply rnd_mult; auto|].
    qabs_lra.
Qed.

(* the error of a rounded product is a number of the format, as soon as the
   product of the two last digits does not underflow *)
Lemma prod_error_F : forall x e, exp_ok F e -> mult e x -> (Qabs x <= p2 (p + p + e))%Q ->
  inF F (x - rnd x).
Proof.
  intros x e O M B.
  apply (inF_intro e); auto; [apply mult_minus; auto; apply rnd_mult; auto|].
  pose proof (rnd_half (p + e) x (exp_ok_le e (p + e) ltac:(lia) O)) as K.
  rewrite Z.add_assoc in K. specialize (K B).
  pose proof (p2_le (p + e - 1) (p + e) ltac:(lia)). qabs_lra.
Qed.

Lemma prod_mult : forall a b ea eb, mult ea a -> mult eb b -> mult (ea + eb) (a * b).
Proof.
  intros a b ea eb [i Hi] [j Hj]. exists (i * j). rewrite Hi, Hj, inject_Z_mult, p2_plus. ring.
Qed.

(* Fast2Sum: s - a is a number of the format when |a| >= |b| *)
Lemma fast2sum_F : forall a b, inF F a -> inF F b -> (Qabs b <= Qabs a)%Q ->
  inF F (rnd (a + b) - a).
Proof.
  intros a b Ha Hb Hle.
  destruct (inF_canonical b Hb) as (eb & Mb & Ob & Bb & Cb).
  destruct (inF_canonical a Ha) as (ea & Ma & Oa & Ba & Ca).
  destruct (Qeq_dec b 0) as [Zb|Nb].
  { apply (inF_comp 0); [|apply inF_0].
    rewrite (rnd_comp (a + b) a) by lra. rewrite (rnd_id a Ha). ring. }
  (* a is a multiple of 2^eb *)
  assert (Hee : eb <= ea).
  { destruct Cb as [C|[C|C]]; [contradiction| |].
    - unfold exp_ok in Oa. rewrite C in Oa. exact Oa.
    - destruct (Z.le_gt_cases eb ea); auto. exfalso.
      pose proof (p2_le (p + ea) (p + eb - 1) ltac:(lia)). lra. }
  assert (Mab : mult eb a) by (apply (mult_le ea); auto).
  assert (Ms : mult eb (a + b)) by (apply mult_plus; auto).
  destruct (Qlt_le_dec (p2 (p + eb)) (Qabs (a + b))) as [Big|Small].
  2:{ apply (inF_comp b); auto. rewrite (rnd_id (a + b)) by (apply (inF_intro eb); auto). ring. }
  assert (Hpos : (0 < Qabs (a + b))%Q) by (pose proof (p2_pos (p + eb)); lra).
  pose proof (qlog2_spec _ Hpos) as [L1 L2]. set (l := qlog2 (Qabs (a + b))) in *.
  set (k := l + 1 - p).
  assert (Hk : eb + 1 <= k).
  { assert (p + eb < l + 1) by (apply p2_lt_inv; lra). unfold k. lia. }
  assert (Ok : exp_ok F (k - 1)) by (apply (exp_ok_le eb); auto; lia).
  pose proof (rnd_half k (a + b) (exp_ok_le _ _ (Z.le_pred_l k) Ok)) as K.
  replace (p + k) with (l + 1) in K by (unfold k; lia). specialize (K ltac:(lra)).
  (* a and s are multiples of 2^(k-1) *)
  assert (Mk : mult (k - 1) a).
  { apply inF_big; auto.
    assert (Qabs (a + b) <= 2 * Qabs a)%Q by qabs_lra.
    assert (2 * p2 (l - 1) == p2 l)%Q by (rewrite <- p2_succ; replace (l - 1 + 1) with l by lia; reflexivity).
    replace (p + (k - 1) - 1) with (l - 1) by (unfold k; lia).
    destruct (Qlt_le_dec (p2 (l - 1)) (Qabs a)) as [|C]; auto. exfalso.
    (* |a| = |b| = 2^(l-1): then a + b = 2^l is a small number *)
    assert (Qabs a == p2 (l - 1))%Q by lra.
    assert (Qabs b == p2 (l - 1))%Q by qabs_lra.
    assert (l - 1 < p + eb) by (apply p2_lt_inv; lra).
    assert (p + eb < l) by (apply p2_lt_inv; apply Qlt_le_trans with (Qabs (a + b)); auto; lra).
    lia. }
  assert (Mr : mult (k - 1) (rnd (a + b))).
  { apply inF_big; [apply rnd_inF|].
    replace (p + (k - 1) - 1) with (l - 1) by (unfold k; lia).
    assert (Fl : inF F (p2 l)).
    { replace l with (p + (k - 1)) by (unfold k; lia). apply inF_p2; auto. }
    pose proof (rnd_abs_ge_F (a + b) (p2 l) Fl ltac:(pose proof (p2_pos l); lra) L1).
    pose proof (p2_lt (l - 1) l ltac:(lia)). lra. }
  apply (inF_intro (k - 1)); auto; [apply mult_minus; auto|].
  pose proof (p2_le (p + eb) (p + (k - 1)) ltac:(lia)) as Pk.
  pose proof (mult_lt_le (k - 1) (Qabs (rnd (a + b) - a)) (2 ^ p) (mult_abs _ _ (mult_minus _ _ _ Mr Mk))) as G.
  rewrite inject_Z_plus in G. change (inject_Z 1) with 1%Q in G.
  setoid_replace ((inject_Z (2 ^ p) + 1) * p2 (k - 1))%Q with (p2 (p + (k - 1)) + p2 (k - 1))%Q in G
    by (rewrite <- p2_prec by lia; ring).
  rewrite p2_prec in G by lia. apply G. clear G. qabs_lra.
Qed.

(* Sterbenz *)
Lemma sterbenz : forall x y, inF F x -> inF F y -> (y <= 2 * x)%Q -> (x <= 2 * y)%Q -> inF F (x - y).
Proof.
  intros x y Hx Hy H1 H2.
  destruct (inF_canonical x Hx) as (ex & Mx & Ox & Bx & Cx).
  destruct (inF_canonical y Hy) as (ey & My & Oy & By & Cy).
  assert (Px : (0 <= x)%Q) by lra. assert (Py : (0 <= y)%Q) by lra.
  rewrite Qabs_pos in Bx by lra. rewrite Qabs_pos in By by lra.
  destruct (Z.le_gt_cases ex ey).
  - (* |x - y| <= x *)
    apply (inF_intro ex); auto; [apply mult_minus; auto; apply (mult_le ey); auto|]. qabs_lra.
  - apply (inF_intro ey); auto; [apply mult_minus; auto; apply (mult_le ex); auto; lia|]. qabs_lra.
Qed.

Lemma sterbenz_neg : forall x y, inF F x -> inF F y -> (2 * x <= y)%Q -> (2 * y <= x)%Q -> inF F (x - y).
Proof.
  intros x y Hx Hy H1 H2. apply (inF_comp (- y - - x)); [ring|].
  apply sterbenz; try apply inF_opp; auto; lra.
Qed.

End Fmt.
