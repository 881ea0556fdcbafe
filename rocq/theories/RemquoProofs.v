(* Proofs about the remainder/quotient digit recurrence. *)
From Coq Require Import ZArith QArith Qabs Qround Znumtheory Bool Lia Lqa Setoid.
From Verif Require Import QUtil FpFormatModel FpFormatProofs FixedProps RoundSpec RoundProofs IndexModel IndexProps RemquoModel.
Open Scope Z_scope.

Lemma qlt_true : forall a b, qlt a b = true <-> (a < b)%Q.
Proof.
  intros a b. unfold qlt. destruct (Qle_bool b a) eqn:E; cbn [negb].
  - apply Qle_bool_iff in E. split; [discriminate|intros; lra].
  - apply Qle_bool_false in E. tauto.
Qed.
Lemma qlt_false : forall a b, qlt a b = false <-> (b <= a)%Q.
Proof.
  intros a b. unfold qlt. destruct (Qle_bool b a) eqn:E; cbn [negb].
  - apply Qle_bool_iff in E. tauto.
  - apply Qle_bool_false in E. split; [discriminate|intros; lra].
Qed.

Lemma swrap_eqm : forall n a b, 1 <= n -> a mod 2 ^ n = b mod 2 ^ n -> swrap n a = swrap n b.
Proof.
  intros n a b Hn E. unfold swrap. f_equal. rewrite <- (Zplus_mod_idemp_l a), <- (Zplus_mod_idemp_l b), E. reflexivity.
Qed.
Lemma swrap_step : forall n q k b, 1 <= n -> q = swrap n k -> swrap n (2 * q + b) = swrap n (2 * k + b).
Proof.
  intros n q k b Hn ->. apply swrap_eqm; auto.
  rewrite <- Zplus_mod_idemp_l, <- Zmult_mod_idemp_r, swrap_mod, Zmult_mod_idemp_r, Zplus_mod_idemp_l by auto. reflexivity.
Qed.
Lemma swrap_add : forall n q k b, 1 <= n -> q = swrap n k -> swrap n (q + b) = swrap n (k + b).
Proof.
  intros n q k b Hn ->. apply swrap_eqm; auto.
  rewrite <- Zplus_mod_idemp_l, swrap_mod, Zplus_mod_idemp_l by auto. reflexivity.
Qed.

Lemma mult_scale : forall e k x, mult e x -> mult (e + k) (x * p2 k).
Proof. intros e k x [z H]. exists z. rewrite H, p2_plus. ring. Qed.
Lemma mult_2 : forall e x, mult e x -> mult (e + 1) (2 * x).
Proof. intros e x [z H]. exists z. rewrite H, p2_succ. ring. Qed.

(* odd divisor of a dyadic equality *)
Lemma dyadic_odd : forall a b c d k, Z.odd k = true -> a <> 0 ->
  (inject_Z a * p2 c == inject_Z k * (inject_Z b * p2 d))%Q -> Z.abs k <= Z.abs a.
Proof.
  intros a b c d k Hk Ha E.
  set (s := Z.min c d).
  assert (E2 : (inject_Z (a * 2 ^ (c - s)) * p2 s == inject_Z (k * b * 2 ^ (d - s)) * p2 s)%Q).
  { rewrite !inject_Z_mult. rewrite <- !p2_Z by lia. 
    setoid_replace (inject_Z a * p2 (c - s) * p2 s)%Q with (inject_Z a * (p2 (c - s) * p2 s))%Q by ring.
    setoid_replace (inject_Z k * inject_Z b * p2 (d - s) * p2 s)%Q with (inject_Z k * (inject_Z b * (p2 (d - s) * p2 s)))%Q by ring.
    rewrite <- !p2_plus. replace (c - s + s) with c by lia. replace (d - s + s) with d by lia. exact E. }
  assert (E3 : a * 2 ^ (c - s) = k * b * 2 ^ (d - s)).
  { apply inject_Z_injective. pose proof (p2_pos s).
    assert (X : ((inject_Z (a * 2 ^ (c - s)) - inject_Z (k * b * 2 ^ (d - s))) * p2 s == 0)%Q) by lra.
    apply Qmult_integral in X. destruct X; lra. }
  assert (D : (k | 2 ^ (c - s) * a)) by (exists (b * 2 ^ (d - s)); lia).
  apply Gauss in D.
  - apply Z.divide_abs_l, Z.divide_abs_r in D. apply Z.divide_pos_le in D; lia.
  - assert (G : forall n, rel_prime k (2 ^ Z.of_nat n)).
    { induction n as [|n IH]; [apply rel_prime_sym, rel_prime_1|]. rewrite Nat2Z.inj_succ, Z.pow_succ_r by lia.
      apply rel_prime_mult; auto. apply rel_prime_sym, prime_rel_prime; [exact prime_2|].
      intros [z ->]. rewrite Z.odd_mul in Hk. rewrite andb_false_r in Hk. discriminate. }
    rewrite <- (Z2Nat.id (c - s)) by lia. apply G.
Qed.

Section Rq.
Variable rnd : Q -> Q.
Variables p es W qs : Z.
Notation F := (mkF p (Some es)).
Hypothesis Hp : 2 <= p.
Hypothesis Hes : es + p <= 1.
Hypothesis HW : p <= W.
Hypothesis Hqs : 0 <= qs < W.
Hypothesis Hr : nearest_in F rnd.

Notation rm := (rm rnd).
Notation rsub := (rsub rnd).
Notation enorm := (enorm p es).
Notation real_e := (real_e p es).

Lemma p1 : 1 <= prec F. Proof. cbn. lia. Qed.
Lemma exp_okF : forall e, es <= e -> exp_ok F e. Proof. auto. Qed.
Lemma W1 : 1 <= W. Proof. lia. Qed.

Lemma rid : forall e x, mult e x -> es <= e -> (Qabs x <= p2 (p + e))%Q -> (rnd x == x)%Q.
Proof. intros e x M E B. apply (rnd_id F rnd Hr). apply (inF_intro F p1 e); auto. Qed.
Lemma rm_exact : forall e a b x, (a * b == x)%Q -> mult e x -> es <= e -> (Qabs x <= p2 (p + e))%Q -> (rm a b == x)%Q.
Proof. intros e a b x E M L B. unfold RemquoModel.rm. rewrite (rnd_comp F rnd Hr _ _ E). apply (rid e); auto. Qed.
Lemma rsub_exact : forall x a b, (a - b == x)%Q -> inF F x -> (rsub a b == x)%Q.
Proof. intros x a b E M. unfold RemquoModel.rsub. rewrite (rnd_comp F rnd Hr _ _ E). apply (rnd_id F rnd Hr); auto. Qed.

Lemma inF_abs : forall x, inF F x -> inF F (Qabs x).
Proof.
  intros x H. destruct (Qlt_le_dec x 0).
  - apply (inF_comp F (- x)); [rewrite Qabs_neg by lra; reflexivity|]. apply inF_opp; auto. apply p1.
  - apply (inF_comp F x); [rewrite Qabs_pos by lra; reflexivity|auto].
Qed.

(* exponent of the last place *)
Definition gexp (v : Q) : Z := Z.max (qlog2 (Qabs v) + 1 - p) es.

Lemma gexp_mult : forall v, inF F v -> ~ (v == 0)%Q -> mult (gexp v) v.
Proof.
  intros v H N. destruct (inF_canonical F p1 v H) as (e & M & O & B & C). cbn [emin prec] in *. unfold exp_ok in O; cbn in O.
  pose proof (Qabs_nz v N) as P. destruct (qlog2_spec _ P) as [L1 L2]. unfold gexp. apply (mult_le e); auto.
  assert (qlog2 (Qabs v) < p + e).
  { apply p2_lt_inv. apply (Qle_lt_trans _ (Qabs v)); auto. }
  lia.
Qed.
Lemma log_ge : forall v, inF F v -> ~ (v == 0)%Q -> es <= qlog2 (Qabs v).
Proof.
  intros v H N. pose proof (gexp_mult v H N) as M. apply (mult_le _ es) in M; [|unfold gexp; lia].
  apply mult_nz in M; auto. pose proof (Qabs_nz v N) as P. destruct (qlog2_spec _ P) as [L1 L2].
  assert (es < qlog2 (Qabs v) + 1) by (apply p2_lt_inv; lra). lia.
Qed.
Lemma real_e_ge : forall v, qlog2 (Qabs v) <= real_e v /\ es + p - 2 <= real_e v.
Proof. intros. unfold RemquoModel.real_e, RemquoModel.enorm. lia. Qed.
Lemma sub_log : forall v, ~ (v == 0)%Q -> (is_sub p es v = true <-> qlog2 (Qabs v) <= es + p - 2)
  /\ (is_sub p es v = false <-> es + p - 1 <= qlog2 (Qabs v)).
Proof.
  intros v N. pose proof (Qabs_nz v N) as P. destruct (qlog2_spec _ P) as [L1 L2].
  assert (A : forall k, (Qabs v < p2 k)%Q <-> qlog2 (Qabs v) < k).
  { intros k. split; intros H; [apply p2_lt_inv; lra|]. pose proof (p2_le (qlog2 (Qabs v) + 1) k ltac:(lia)). lra. }
  unfold is_sub, RemquoModel.enorm. specialize (A (es + p - 1)). split.
  - rewrite qlt_true, A. lia.
  - rewrite qlt_false. split; intros H; [|pose proof (p2_le _ _ H); lra].
    destruct (Z.le_gt_cases (es + p - 1) (qlog2 (Qabs v))) as [|G]; auto. apply A in G. lra.
Qed.

Lemma h0_bounds : forall e, (0 <= e -> 0 <= h0 e <= e) /\ (e <= 0 -> e <= h0 e <= 0) /\ (e <= -1 -> e + 1 <= h0 e).
Proof.
  intros e. unfold h0. Z.to_euclidean_division_equations. lia.
Qed.

Lemma unit_mag_exact : forall v, inF F v -> ~ (v == 0)%Q ->
  (unit_mag rnd p es v == Qabs v * p2 (- real_e v))%Q.
Proof.
  intros v H N. pose proof (gexp_mult v H N) as M. pose proof (Qabs_nz v N) as P.
  destruct (qlog2_spec _ P) as [L1 L2]. pose proof (real_e_ge v) as [R1 R2].
  set (e := real_e v) in *. pose proof (h0_bounds e) as (A1 & A2 & A3).
  assert (Ee : e = Z.max (qlog2 (Qabs v)) (es + p - 2)) by (unfold e, RemquoModel.real_e, RemquoModel.enorm; lia).
  assert (Bv : (Qabs v <= p2 (e + 1))%Q) by (pose proof (p2_le (qlog2 (Qabs v) + 1) (e + 1) ltac:(lia)); lra).
  unfold gexp in M. set (l := qlog2 (Qabs v)) in *. set (g := Z.max (l + 1 - p) es) in *.
  assert (S1 : (rm v (p2 (- h0 e)) == v * p2 (- h0 e))%Q).
  { apply (rm_exact (g - h0 e)); [reflexivity|apply mult_scale; auto|lia|].
    rewrite Qabs_mul_pos by apply p2_pos. replace (p + (g - h0 e)) with ((p + g) + - h0 e) by lia. rewrite p2_plus.
    apply Qmult_le_compat_r; [|pose proof (p2_pos (- h0 e)); lra]. pose proof (p2_le (l + 1) (p + g) ltac:(lia)). lra. }
  assert (Eb : (v * p2 (- h0 e) * p2 (- h1 e) == v * p2 (- e))%Q).
  { rewrite <- Qmult_assoc, <- p2_plus. replace (- h0 e + - h1 e) with (- e) by (unfold h1; lia). reflexivity. }
  assert (S2 : (rm (rm v (p2 (- h0 e))) (p2 (- h1 e)) == v * p2 (- e))%Q).
  { apply (rm_exact (g + - e)); [rewrite S1; exact Eb|apply mult_scale; auto|lia|].
    rewrite Qabs_mul_pos by apply p2_pos. replace (p + (g + - e)) with ((p + g) + - e) by lia. rewrite p2_plus.
    apply Qmult_le_compat_r; [|pose proof (p2_pos (- e)); lra]. pose proof (p2_le (l + 1) (p + g) ltac:(lia)). lra. }
  unfold unit_mag. fold e. rewrite S2, Qabs_mul_pos by apply p2_pos. reflexivity.
Qed.

Lemma init_my_exact : forall v, inF F v -> ~ (v == 0)%Q ->
  (init_my rnd p es v == Qabs v * p2 (- qlog2 (Qabs v)))%Q.
Proof.
  intros v H N. destruct (sub_log v N) as [B1 B2]. unfold init_my. destruct (is_sub p es v) eqn:E.
  - destruct B1 as [B1 _]. specialize (B1 eq_refl). clear B2. pose proof (gexp_mult v H N) as M.
    pose proof (Qabs_nz v N) as P. destruct (qlog2_spec _ P) as [L1 L2].
    assert (S1 : (rm v (p2 p) == v * p2 p)%Q).
    { apply (rm_exact (gexp v + p)); [reflexivity|apply mult_scale; auto|unfold gexp; lia|].
      rewrite Qabs_mul_pos by apply p2_pos. replace (p + (gexp v + p)) with ((p + gexp v) + p) by lia. rewrite p2_plus.
      apply Qmult_le_compat_r; [|pose proof (p2_pos p); lra].
      pose proof (p2_le (qlog2 (Qabs v) + 1) (p + gexp v) ltac:(unfold gexp; lia)). lra. }
    assert (Lg : qlog2 (Qabs (rm v (p2 p))) = qlog2 (Qabs v) + p).
    { apply qlog2_unique; rewrite S1, Qabs_mul_pos by apply p2_pos.
      - rewrite p2_plus. apply Qmult_le_compat_r; [auto|pose proof (p2_pos p); lra].
      - replace (qlog2 (Qabs v) + p + 1) with ((qlog2 (Qabs v) + 1) + p) by lia. rewrite p2_plus.
        apply Qmult_lt_r; [apply p2_pos|auto]. }
    unfold mant. rewrite Lg, S1. rewrite !Qabs_mul_pos by apply p2_pos. rewrite <- Qmult_assoc, <- p2_plus.
    replace (p + - (qlog2 (Qabs v) + p)) with (- qlog2 (Qabs v)) by lia. reflexivity.
  - destruct B2 as [B2 _]. specialize (B2 eq_refl). rewrite unit_mag_exact by auto.
    replace (real_e v) with (qlog2 (Qabs v)) by (unfold RemquoModel.real_e, RemquoModel.enorm; lia). reflexivity.
Qed.

(* ---------------- first loop ---------------- *)
Lemma p2_1 : (p2 1 == 2)%Q. Proof. reflexivity. Qed.
Lemma p2_2 : (p2 2 == 4)%Q. Proof. reflexivity. Qed.

Lemma loop1_spec : forall n my wd mx q k,
  mult (1 - p) my -> (1 <= my)%Q -> (my < 2)%Q -> mult (1 - p) mx -> (0 <= mx)%Q -> (mx < 2 * my)%Q ->
  q = swrap W k -> 0 <= k -> Z.of_nat n <= wd ->
  exists mx' q' k', loop1 rnd W n my wd mx q = Some (wd - Z.of_nat n, mx', q')
  /\ (0 <= mx')%Q /\ (mx' < 2 * my)%Q /\ q' = swrap W k' /\ 0 <= k'
  /\ (mx' + 2 * inject_Z k' * my == p2 (Z.of_nat n) * (mx + 2 * inject_Z k * my))%Q
  /\ (n = O -> mx' = mx /\ k' = k) /\ (n <> O -> mult (2 - p) mx').
Proof.
  induction n as [|n IH]; intros my wd mx q k My M1 M2 Mx X1 X2 Hq Hk Hw.
  - exists mx, q, k. cbn [loop1]. change (Z.of_nat 0) with 0. rewrite Z.sub_0_r, p2_0. 
    split; [reflexivity|]. split; [auto|]. split; [auto|]. split; [auto|]. split; [auto|]. split; [ring|]. split; [auto|congruence].
  - cbn [loop1]. rewrite Nat2Z.inj_succ in *.
    set (b := Qle_bool my mx). set (d := (if b then my else 0)%Q).
    assert (Hd : (mx - d < my)%Q /\ (0 <= mx - d)%Q /\ (d == inject_Z (b2z b) * my)%Q /\ mult (1 - p) d).
    { unfold d, b. destruct (Qle_bool my mx) eqn:E; cbn [b2z].
      - apply Qle_bool_iff in E. split; [lra|]. split; [lra|]. split; [change (inject_Z 1) with 1%Q; ring|auto].
      - apply Qle_bool_false in E. split; [lra|]. split; [lra|]. split; [change (inject_Z 0) with 0%Q; ring|apply mult_0]. }
    destruct Hd as (D1 & D2 & D3 & D4).
    assert (Md : mult (1 - p) (mx - d)) by (apply mult_minus; auto).
    assert (S1 : (rsub mx d == mx - d)%Q).
    { apply rsub_exact; [reflexivity|]. apply (inF_intro F p1 (1 - p)); auto; [apply exp_okF; lia|].
      cbn [prec]. replace (p + (1 - p)) with 1 by lia. rewrite p2_1, Qabs_pos by lra. lra. }
    assert (S2 : (rm 2 (rsub mx d) == 2 * (mx - d))%Q).
    { apply (rm_exact (2 - p)); [rewrite S1; reflexivity| |lia|].
      - replace (2 - p) with (1 - p + 1) by lia. apply mult_2. auto.
      - replace (p + (2 - p)) with 2 by lia. rewrite p2_2, Qabs_pos by lra. lra. }
    replace (wd - 1 <? 0) with false by (symmetry; apply Z.ltb_ge; lia).
    destruct (IH my (wd - 1) (rm 2 (rsub mx d)) (swrap W (2 * q + b2z b)) (2 * k + b2z b)) as (mx' & q' & k' & E & P1 & P2 & P3 & P4 & P5 & P6 & P7); auto.
    + apply (mult_comp _ (2 * (mx - d))); [symmetry; auto|]. apply (mult_le (1 - p + 1)); [lia|]. apply mult_2. auto.
    + rewrite S2. lra.
    + rewrite S2. lra.
    + apply swrap_step; auto. apply W1.
    + unfold b2z. destruct b; lia.
    + lia.
    + exists mx', q', k'. split; [rewrite E; f_equal; f_equal; f_equal; lia|]. split; auto. split; auto. split; auto. split; auto.
      split; [|split; [congruence|]].
      * rewrite P5, S2. unfold Z.succ. rewrite p2_succ, inject_Z_plus, inject_Z_mult, D3. change (inject_Z 2) with 2%Q. ring.
      * intros _. destruct n as [|n]; [|apply P7; congruence]. destruct (P6 eq_refl) as [-> _].
        apply (mult_comp _ (2 * (mx - d))); [symmetry; auto|]. replace (2 - p) with (1 - p + 1) by lia. apply mult_2. auto.
Qed.

(* ---------------- second loop ---------------- *)
Lemma loop2_none : forall f ay my wd mx q, (my <= ay)%Q -> loop2 rnd W (S f) ay my wd mx q = Some (wd, mx, q).
Proof. intros. cbn [loop2]. apply qlt_false in H. rewrite H. reflexivity. Qed.

Lemma loop2_spec : forall j f ay my wd mx q k,
  (0 < ay)%Q -> mult es ay -> (my == ay * p2 (Z.of_nat j))%Q -> (j <> O -> my <= p2 (p + es))%Q ->
  mult es mx -> inF F mx -> (0 <= mx)%Q -> (mx < 2 * my)%Q -> q = swrap W k -> 0 <= k ->
  Z.of_nat j <= wd -> (j < f)%nat ->
  exists mx' q' k', loop2 rnd W f ay my wd mx q = Some (wd - Z.of_nat j, mx', q')
  /\ inF F mx' /\ (0 <= mx')%Q /\ (mx' < 2 * ay)%Q /\ q' = swrap W k' /\ 0 <= k'
  /\ (mx' + 2 * inject_Z k' * ay == mx + 2 * inject_Z k * my)%Q.
Proof.
  induction j as [|j IH]; intros f ay my wd mx q k Pa Ma Em Bm Mx Fx X1 X2 Hq Hk Hw Hf.
  - destruct f as [|f]; [lia|]. change (Z.of_nat 0) with 0 in *. rewrite p2_0 in Em. rewrite loop2_none by lra.
    exists mx, q, k. rewrite Z.sub_0_r. split; [reflexivity|]. split; auto. split; auto. split; [lra|]. split; auto. split; auto.
    rewrite Em. ring.
  - destruct f as [|f]; [lia|]. rewrite Nat2Z.inj_succ in *. specialize (Bm ltac:(congruence)).
    assert (Em2 : (my == 2 * (ay * p2 (Z.of_nat j)))%Q) by (rewrite Em; unfold Z.succ; rewrite p2_succ; ring).
    assert (J : (1 <= p2 (Z.of_nat j))%Q) by (rewrite <- p2_0; apply p2_le; lia).
    assert (G : (ay <= ay * p2 (Z.of_nat j))%Q).
    { setoid_replace ay with (ay * 1)%Q at 1 by ring. rewrite (Qmult_comm ay 1), (Qmult_comm ay (p2 _)). apply Qmult_le_compat_r; lra. }
    set (my2 := (ay * p2 (Z.of_nat j))%Q) in *.
    assert (Mm2 : mult es my2).
    { apply (mult_le (es + Z.of_nat j)); [lia|]. apply mult_scale; auto. }
    assert (Mm : mult es my) by (apply (mult_comp _ (2 * my2)); [symmetry; auto|]; apply (mult_le (es + 1)); [lia|]; apply mult_2; auto).
    cbn [loop2]. replace (qlt ay my) with true by (symmetry; apply qlt_true; lra).
    set (b := Qle_bool (Qabs my) mx). set (d := (if b then Qabs my else 0)%Q).
    assert (Ab : (Qabs my == my)%Q) by (apply Qabs_pos; lra).
    assert (Hd : (mx - d < my)%Q /\ (0 <= mx - d)%Q /\ (d == inject_Z (b2z b) * my)%Q /\ mult es d).
    { unfold d, b. destruct (Qle_bool (Qabs my) mx) eqn:E; cbn [b2z].
      - apply Qle_bool_iff in E. split; [lra|]. split; [lra|]. split; [change (inject_Z 1) with 1%Q; lra|].
        apply (mult_comp _ my); [symmetry; auto|auto].
      - apply Qle_bool_false in E. split; [lra|]. split; [lra|]. split; [change (inject_Z 0) with 0%Q; ring|apply mult_0]. }
    destruct Hd as (D1 & D2 & D3 & D4).
    assert (Md : mult es (mx - d)) by (apply mult_minus; auto).
    assert (Fd : inF F (mx - d)).
    { apply (inF_intro F p1 es); auto; [apply exp_okF; lia|]. cbn [prec]. rewrite Qabs_pos by lra. lra. }
    assert (S1 : (rsub mx d == mx - d)%Q) by (apply rsub_exact; [reflexivity|auto]).
    assert (S2 : (rm my (1 # 2) == my2)%Q).
    { apply (rm_exact es); [rewrite Em2; field|auto|lia|]. rewrite Qabs_pos by lra. lra. }
    replace (wd - 1 <? 0) with false by (symmetry; apply Z.ltb_ge; lia).
    destruct (IH f ay (rm my (1 # 2)) (wd - 1) (rsub mx d) (swrap W (2 * q + b2z b)) (2 * k + b2z b)) as (mx' & q' & k' & E & P1 & P2 & P3 & P4 & P5 & P6); auto.
    + intros _. rewrite S2. lra.
    + apply (mult_comp _ (mx - d)); [symmetry; auto|auto].
    + apply (inF_comp F (mx - d)); [symmetry; auto|auto].
    + rewrite S1. lra.
    + rewrite S1, S2. lra.
    + apply swrap_step; auto. apply W1.
    + unfold b2z. destruct b; lia.
    + lia.
    + lia.
    + exists mx', q', k'. split; [rewrite E; f_equal; f_equal; f_equal; lia|]. split; auto. split; auto. split; auto. split; auto. split; auto.
      rewrite P6, S1, S2, inject_Z_plus, inject_Z_mult, D3, Em2. change (inject_Z 2) with 2%Q. ring.
Qed.

(* ---------------- third loop and last subtraction ---------------- *)
Lemma loop3_spec : forall f ay wd mx q k,
  (0 < ay)%Q -> inF F ay -> inF F mx -> (0 <= mx)%Q -> (mx < 2 * ay)%Q -> q = swrap W k -> 0 <= k -> 1 <= wd -> (1 < f)%nat ->
  exists wd' mx' q' k', loop3 rnd W f ay wd mx q = Some (wd', mx', q')
  /\ inF F mx' /\ (0 <= mx')%Q /\ (mx' <= ay)%Q /\ q' = swrap W k' /\ 0 <= k'
  /\ (mx' + inject_Z k' * ay == mx + inject_Z k * ay)%Q.
Proof.
  intros f ay wd mx q k Pa Fa Fx X1 X2 Hq Hk Hw Hf. destruct f as [|[|f]]; try lia.
  cbn [loop3]. destruct (qlt ay mx) eqn:E.
  - apply qlt_true in E. cbn [b2z]. replace (wd - 1 <? 0) with false by (symmetry; apply Z.ltb_ge; lia).
    assert (Fd : inF F (mx - ay)) by (apply sterbenz; auto; [apply p1|lra|lra]).
    assert (S1 : (rsub mx ay == mx - ay)%Q) by (apply rsub_exact; [reflexivity|auto]).
    replace (qlt ay (rsub mx ay)) with false by (symmetry; apply qlt_false; rewrite S1; lra).
    exists (wd - 1), (rsub mx ay), (swrap W (q + 1)), (k + 1). split; [reflexivity|].
    split; [apply (inF_comp F (mx - ay)); [symmetry; auto|auto]|]. split; [rewrite S1; lra|]. split; [rewrite S1; lra|].
    split; [apply swrap_add; auto; apply W1|]. split; [lia|]. rewrite S1, inject_Z_plus. change (inject_Z 1) with 1%Q. ring.
  - apply qlt_false in E. exists wd, mx, q, k. split; [reflexivity|]. split; auto. split; auto. split; auto. split; auto. split; auto. reflexivity.
Qed.

(* half of the divisor as the scheme computes it, relatively to the tests on
   the remainder itself *)
Definition half (vy : Q) : Q := if is_sub p es vy then (Qabs vy / 2)%Q else half_y rnd p es vy.

Lemma half_tests : forall vy m, inF F vy -> ~ (vy == 0)%Q -> inF F m -> (Qabs m <= Qabs vy)%Q ->
  qlt (half_y rnd p es vy) (half_x rnd p es vy m) = qlt (half vy) m
  /\ Qeq_bool (half_x rnd p es vy m) (half_y rnd p es vy) = Qeq_bool m (half vy).
Proof.
  intros vy m Fy Ny Fm Bm. destruct (sub_log vy Ny) as [B1 B2].
  assert (E : exists s, (0 < s)%Q /\ (half_y rnd p es vy == s * half vy)%Q /\ (half_x rnd p es vy m == s * m)%Q).
  { unfold half, half_x. destruct (is_sub p es vy) eqn:Es.
    - exists 2%Q. split; [lra|]. destruct B1 as [B1 _]. specialize (B1 eq_refl).
      pose proof (Qabs_nz vy Ny) as P. destruct (qlog2_spec _ P) as [L1 L2].
      pose proof (p2_le (qlog2 (Qabs vy) + 1) (p + es - 1) ltac:(lia)) as Lb.
      assert (E2 : (p2 (p + es) == 2 * p2 (p + es - 1))%Q) by (rewrite <- p2_succ; replace (p + es - 1 + 1) with (p + es) by lia; reflexivity).
      split.
      + unfold half_y. rewrite Es. unfold RemquoModel.rm. rewrite (rnd_comp F rnd Hr _ vy) by ring. rewrite (rnd_id F rnd Hr) by auto.
        field.
      + destruct (Qeq_dec m 0) as [Z|Nm].
        * unfold RemquoModel.rm. rewrite (rnd_comp F rnd Hr _ m) by (rewrite Z; ring). rewrite (rnd_id F rnd Hr) by auto. rewrite Z. ring.
        * apply (rm_exact (es + 1)); [ring| |lia|].
          -- apply mult_2. apply (mult_le (gexp m)); [unfold gexp; lia|]. apply gexp_mult; auto.
          -- rewrite Qabs_Qmult. change (Qabs 2) with 2%Q. replace (p + (es + 1)) with (p + es + 1) by lia. rewrite p2_succ. lra.
    - exists 1%Q. split; [lra|]. split; [ring|]. unfold RemquoModel.rm. rewrite (rnd_comp F rnd Hr _ m) by ring.
      rewrite (rnd_id F rnd Hr) by auto. ring. }
  destruct E as (s & Ps & E1 & E2). split.
  - apply eq_true_iff_eq. rewrite !qlt_true. rewrite E1, E2. rewrite !(Qmult_comm s). split; intros H.
    + apply Qmult_lt_r in H; auto.
    + apply Qmult_lt_r; auto.
  - apply eq_true_iff_eq. rewrite !Qeq_bool_iff. rewrite E1, E2. split; intros H.
    + apply Qmult_inj_l in H; auto. lra.
    + rewrite H. reflexivity.
Qed.

(* ---------------- the whole loop ---------------- *)
Definition qsign (v : Q) : Z := if qlt v 0 then -1 else 1.
Definition adjust (vy m : Q) (k : Z) : Z := b2z (qlt (half vy) m || (Qeq_bool m (half vy) && (Z.rem (swrap W k) 2 =? 1))).

Lemma unscale : forall g m u, mult g m -> es <= g + u -> es <= g + h0 u -> (Qabs m <= p2 (p + g))%Q ->
  (rm (rm m (p2 (h0 u))) (p2 (h1 u)) == m * p2 u)%Q.
Proof.
  intros g m u M E1 E2 B.
  assert (S1 : (rm m (p2 (h0 u)) == m * p2 (h0 u))%Q).
  { apply (rm_exact (g + h0 u)); [reflexivity|apply mult_scale; auto|lia|].
    rewrite Qabs_mul_pos by apply p2_pos. rewrite Z.add_assoc, p2_plus. apply Qmult_le_compat_r; [auto|pose proof (p2_pos (h0 u)); lra]. }
  apply (rm_exact (g + u)); [| apply mult_scale; auto|lia|].
  - rewrite S1, <- Qmult_assoc, <- p2_plus. replace (h0 u + h1 u) with u by (unfold h1; lia). reflexivity.
  - rewrite Qabs_mul_pos by apply p2_pos. rewrite Z.add_assoc, p2_plus. apply Qmult_le_compat_r; [auto|pose proof (p2_pos u); lra].
Qed.

Lemma before_finish : forall vx vy, inF F vx -> inF F vy -> ~ (vx == 0)%Q -> ~ (vy == 0)%Q ->
  real_e vx - es + 1 <= 5000 ->
  exists mx q k, digit_loop rnd p es W qs vx vy = Some (finish rnd p es W qs vx vy mx q)
  /\ inF F mx /\ (0 <= mx)%Q /\ (mx <= Qabs vy)%Q /\ q = swrap W k /\ 0 <= k /\ (mx + inject_Z k * Qabs vy == Qabs vx)%Q.
Proof.
  intros vx vy Fx Fy Nx Ny Hwd.
  pose proof (unit_mag_exact vx Fx Nx) as Emx. pose proof (init_my_exact vy Fy Ny) as Emy.
  pose proof (gexp_mult vx Fx Nx) as Gx. pose proof (gexp_mult vy Fy Ny) as Gy.
  pose proof (log_ge vx Fx Nx) as Lx. pose proof (log_ge vy Fy Ny) as Ly.
  pose proof (Qabs_nz vx Nx) as Px. pose proof (Qabs_nz vy Ny) as Py.
  destruct (qlog2_spec _ Px) as [X1 X2]. destruct (qlog2_spec _ Py) as [Y1 Y2].
  unfold digit_loop. unfold gexp in Gx, Gy.
  assert (Eex : real_e vx = Z.max (qlog2 (Qabs vx)) (es + p - 2)) by (unfold RemquoModel.real_e, RemquoModel.enorm; lia).
  assert (Eey : real_e vy = Z.max (qlog2 (Qabs vy)) (es + p - 2)) by (unfold RemquoModel.real_e, RemquoModel.enorm; lia).
  set (ex := real_e vx) in *. set (ey := real_e vy) in *. set (lx := qlog2 (Qabs vx)) in *. set (l := qlog2 (Qabs vy)) in *.
  set (my := init_my rnd p es vy) in *. set (mx0 := unit_mag rnd p es vx) in *. set (ax := Qabs vx) in *. set (ay := Qabs vy) in *.
  apply mult_abs in Gx, Gy. fold ax in Gx. fold ay in Gy.
  set (gx := Z.max (lx + 1 - p) es) in *. set (gy := Z.max (l + 1 - p) es) in *.
  assert (Hgx : gx = Z.max (lx + 1 - p) es) by reflexivity. assert (Hgy : gy = Z.max (l + 1 - p) es) by reflexivity.
  assert (My0 : mult (gy - l) my) by (apply (mult_comp _ (ay * p2 (- l))); [symmetry; auto|]; apply (mult_scale gy (- l)); auto).
  assert (My1 : mult (1 - p) my) by (apply (mult_le (gy - l)); [unfold gy; lia|auto]).
  assert (Bm : (1 <= my)%Q /\ (my < 2)%Q).
  { assert (Z0 : (p2 l * p2 (- l) == 1)%Q) by (rewrite Qmult_comm; apply p2_opp). pose proof (p2_pos (- l)).
    split.
    - rewrite Emy, <- Z0. apply Qmult_le_compat_r; lra.
    - rewrite Emy. rewrite p2_succ in Y2. setoid_replace 2%Q with (2 * p2 l * p2 (- l))%Q by (rewrite <- Qmult_assoc, Z0; ring).
      apply Qmult_lt_r; lra. }
  destruct Bm as [Bm1 Bm2].
  assert (Mx0 : mult (gx - ex) mx0) by (apply (mult_comp _ (ax * p2 (- ex))); [symmetry; auto|]; apply (mult_scale gx (- ex)); auto).
  assert (Mx1 : mult (1 - p) mx0) by (apply (mult_le (gx - ex)); [unfold gx; lia|auto]).
  assert (Bx : (0 <= mx0)%Q /\ (mx0 < 2)%Q).
  { assert (Z0 : (p2 ex * p2 (- ex) == 1)%Q) by (rewrite Qmult_comm; apply p2_opp). pose proof (p2_pos (- ex)).
    split.
    - rewrite Emx. apply Qmult_le_0_compat; lra.
    - rewrite Emx. pose proof (p2_le (lx + 1) (ex + 1) ltac:(lia)) as L. rewrite (p2_succ ex) in L.
      setoid_replace 2%Q with (2 * p2 ex * p2 (- ex))%Q by (rewrite <- Qmult_assoc, Z0; ring).
      apply Qmult_lt_r; lra. }
  destruct Bx as [Bx1 Bx2].
  destruct (loop1_spec (Z.to_nat (ex - ey)) my 5000 mx0 0 0) as (mx' & q' & k' & E1 & P1 & P2 & P3 & P4 & P5 & P6 & P7); auto; try lia; try lra.
  { unfold swrap. rewrite Z.add_0_l. rewrite Z.mod_small; [lia|]. pose proof W1. split; [apply Z.pow_nonneg; lia|apply Z.pow_lt_mono_r; lia]. }
  rewrite E1. clear E1. replace (Z.of_nat (Z.to_nat (ex - ey))) with (Z.max (ex - ey) 0) in * by lia.
  (* my after unscaling *)
  pose proof W1 as HW1.
  destruct (Z_lt_le_dec ex ey) as [C|C].
  - (* exponent of x below the one of y: y is normal *)
    replace (Z.to_nat (ex - ey)) with O in * by lia. destruct (P6 eq_refl) as [-> ->]. clear P6 P7.
    replace (ey <? ex) with false by (symmetry; apply Z.ltb_ge; lia).
    assert (Ely : ey = l) by lia. replace (Z.max (ex - ey) 0) with 0 in * by lia. rewrite Z.sub_0_r in *.
    assert (Sx : (rm (rm mx0 (p2 (h0 ex))) (p2 (h1 ex)) == ax)%Q).
    { destruct (h0_bounds ex) as (H1 & H2 & H3). rewrite (unscale (gx - ex)); auto; try lia.
      - rewrite Emx, <- Qmult_assoc, p2_opp. ring.
      - rewrite Qabs_pos by lra. pose proof (p2_le 1 (p + (gx - ex)) ltac:(lia)). rewrite p2_1 in *. lra. }
    assert (Sy1 : (rm my (p2 (h0 ex)) == my * p2 (h0 ex))%Q).
    { destruct (h0_bounds ex) as (H1 & H2 & H3).
      apply (rm_exact (1 - p + h0 ex)); [reflexivity|apply mult_scale; auto|lia|].
      rewrite Qabs_mul_pos by apply p2_pos. replace (p + (1 - p + h0 ex)) with (1 + h0 ex) by lia. rewrite p2_plus, p2_1.
      apply Qmult_le_compat_r; [rewrite Qabs_pos by lra; lra|pose proof (p2_pos (h0 ex)); lra]. }
    set (my1 := rm (rm my (p2 (h0 ex))) (p2 (h1 ex))). set (mx1 := rm (rm mx0 (p2 (h0 ex))) (p2 (h1 ex))) in *.
    assert (Sy : (my1 <= ay)%Q).
    { unfold my1, RemquoModel.rm at 1. apply (rnd_le_F F rnd Hr); [apply inF_abs; auto|].
      rewrite Sy1, <- Qmult_assoc, <- p2_plus. replace (h0 ex + h1 ex) with ex by (unfold h1; lia).
      rewrite Emy, <- Qmult_assoc, <- p2_plus.
      setoid_replace ay with (ay * 1)%Q at 2 by ring. rewrite !(Qmult_comm ay). apply Qmult_le_compat_r; [|lra].
      rewrite <- p2_0. apply p2_le. lia. }
    rewrite loop2_none by auto.
    assert (I1 : inF F mx1) by (apply (inF_comp F ax); [symmetry; auto|apply inF_abs; auto]).
    destruct (loop3_spec (S (Z.to_nat 5000)) ay 5000 mx1 (swrap W (2 * q')) 0) as (wd3 & mx3 & q3 & k3 & E3 & R1 & R2 & R3 & R4 & R5 & R6); auto; try lia.
    + apply inF_abs; auto.
    + rewrite Sx. lra.
    + rewrite Sx. pose proof (p2_le (lx + 1) l ltac:(lia)). lra.
    + pose proof (swrap_step W q' 0 0 W1 P3) as Sw. rewrite !Z.add_0_r in Sw. exact Sw.
    + rewrite E3. exists mx3, q3, k3. split; auto. split; auto. split; auto. split; auto. split; auto. split; auto.
      rewrite R6, Sx. change (inject_Z 0) with 0%Q. ring.
  - assert (Eu : (if ey <? ex then ey else ex) = ey) by (destruct (Z.ltb_spec ey ex); lia). rewrite Eu.
    replace (Z.max (ex - ey) 0) with (ex - ey) in * by lia.
    destruct (h0_bounds ey) as (H1 & H2 & H3).
    set (mx1 := rm (rm mx' (p2 (h0 ey))) (p2 (h1 ey))). set (my1 := rm (rm my (p2 (h0 ey))) (p2 (h1 ey))).
    assert (Sy : (my1 == ay * p2 (ey - l))%Q).
    { unfold my1. rewrite (unscale (gy - l)); auto; try lia.
      - rewrite Emy, <- Qmult_assoc, <- p2_plus. replace (- l + ey) with (ey - l) by lia. reflexivity.
      - rewrite Qabs_pos by lra. pose proof (p2_le 1 (p + (gy - l)) ltac:(unfold gy; lia)). rewrite p2_1 in *. lra. }
    assert (Sx : (mx1 == mx' * p2 ey)%Q).
    { unfold mx1. destruct (Nat.eq_dec (Z.to_nat (ex - ey)) 0) as [Z0|NZ].
      - destruct (P6 Z0) as [-> _]. apply (unscale (gx - ex)); auto; try lia.
        rewrite Qabs_pos by lra. pose proof (p2_le 1 (p + (gx - ex)) ltac:(unfold gx; lia)). rewrite p2_1 in *. lra.
      - apply (unscale (2 - p)); auto; try lia.
        replace (p + (2 - p)) with 2 by lia. rewrite p2_2, Qabs_pos by lra. lra. }
    assert (Mult1 : mult es mx1).
    { apply (mult_comp _ (mx' * p2 ey)); [symmetry; auto|]. destruct (Nat.eq_dec (Z.to_nat (ex - ey)) 0) as [Z0|NZ].
      - destruct (P6 Z0) as [-> _]. apply (mult_le (gx - ex + ey)); [lia|]. apply mult_scale; auto.
      - apply (mult_le (2 - p + ey)); [lia|]. apply mult_scale; auto. }
    pose proof (p2_pos ey) as Pey.
    assert (Smy : (my * p2 ey == ay * p2 (ey - l))%Q).
    { rewrite Emy, <- Qmult_assoc, <- p2_plus. replace (- l + ey) with (ey - l) by lia. reflexivity. }
    assert (B1 : (mx1 < 2 * my1)%Q).
    { rewrite Sx, Sy, <- Smy, Qmult_assoc. apply Qmult_lt_r; auto. }
    assert (B0 : (0 <= mx1)%Q) by (rewrite Sx; apply Qmult_le_0_compat; lra).
    assert (T : (mx1 + 2 * inject_Z k' * my1 == ax)%Q).
    { rewrite Sx, Sy, <- Smy. setoid_replace (mx' * p2 ey + 2 * inject_Z k' * (my * p2 ey))%Q with ((mx' + 2 * inject_Z k' * my) * p2 ey)%Q by ring.
      rewrite P5. change (inject_Z 0) with 0%Q. rewrite Emx.
      setoid_replace (p2 (ex - ey) * (ax * p2 (- ex) + 2 * 0 * my) * p2 ey)%Q with (ax * (p2 (ex - ey) * p2 (- ex) * p2 ey))%Q by ring.
      rewrite <- !p2_plus. replace (ex - ey + - ex + ey) with 0 by lia. rewrite p2_0. ring. }
    destruct (loop2_spec (Z.to_nat (ey - l)) (S (Z.to_nat (5000 - (ex - ey)))) ay my1 (5000 - (ex - ey)) mx1 q' k') as (mx2 & q2 & k2 & E2 & Q1 & Q2 & Q3 & Q4 & Q5 & Q6); auto; try lia.
    + apply (mult_le gy); [lia|auto].
    + rewrite Z2Nat.id by lia. auto.
    + intros NZ. rewrite Sy. assert (ey = es + p - 2) by lia. replace ey with (es + p - 2) by lia.
      pose proof (p2_pos (es + p - 2 - l)) as Pq. apply (Qle_trans _ (p2 (l + 1) * p2 (es + p - 2 - l))).
      * apply Qmult_le_compat_r; lra.
      * rewrite <- p2_plus. apply p2_le. lia.
    + apply (rnd_inF F rnd Hr).
    + rewrite E2. rewrite Z2Nat.id by lia.
      destruct (loop3_spec (S (Z.to_nat (5000 - (ex - ey) - (ey - l)))) ay (5000 - (ex - ey) - (ey - l)) mx2 (swrap W (2 * q2)) (2 * k2)) as (wd3 & mx3 & q3 & k3 & E3 & R1 & R2 & R3 & R4 & R5 & R6); auto; try lia.
      * apply inF_abs; auto.
      * pose proof (swrap_step W q2 k2 0 W1 Q4) as Sw. rewrite !Z.add_0_r in Sw. exact Sw.
      * rewrite E3. exists mx3, q3, k3. split; auto. split; auto. split; auto. split; auto. split; auto. split; auto.
        rewrite R6, inject_Z_mult. change (inject_Z 2) with 2%Q. rewrite Q6. exact T.
Qed.

Lemma half_pos : forall vy, inF F vy -> ~ (vy == 0)%Q -> (0 < half vy)%Q.
Proof.
  intros vy Fy Ny. pose proof (Qabs_nz vy Ny) as Py. unfold half. destruct (sub_log vy Ny) as [_ B]. destruct (is_sub p es vy) eqn:E.
  - apply Qlt_shift_div_l; lra.
  - destruct B as [B _]. specialize (B eq_refl). unfold half_y. rewrite E. unfold RemquoModel.rm. destruct (qlog2_spec _ Py) as [L1 L2].
    apply (Qlt_le_trans _ (p2 es)); [apply p2_pos|]. apply (rnd_abs_ge_F F p1 rnd Hr).
    + apply (inF_intro F p1 es); [apply mult_p2; lia|apply exp_okF; lia|]. rewrite Qabs_pos by (pose proof (p2_pos es); lra). apply p2_le. cbn. lia.
    + pose proof (p2_pos es); lra.
    + rewrite Qabs_mul_pos by lra. pose proof (p2_le (es + 1) (qlog2 (Qabs vy)) ltac:(lia)) as L. rewrite p2_succ in L. lra.
Qed.

Lemma finish_spec : forall vx vy mx q k, inF F vx -> inF F vy -> ~ (vx == 0)%Q -> ~ (vy == 0)%Q ->
  inF F mx -> (0 <= mx)%Q -> (mx <= Qabs vy)%Q -> q = swrap W k -> 0 <= k -> (mx + inject_Z k * Qabs vy == Qabs vx)%Q ->
  exists k0 m r, 0 <= k0 /\ (0 <= m)%Q /\ (m < Qabs vy)%Q /\ inF F m /\ (m + inject_Z k0 * Qabs vy == Qabs vx)%Q
  /\ finish rnd p es W qs vx vy mx q
     = (qsign vx * qsign vy * ((k0 + adjust vy m k0) mod 2 ^ qs), r, xorb (qlt vx 0) (qlt (inject_Z (qsign vx) * r) 0))
  /\ (inF F (m - inject_Z (adjust vy m k0) * Qabs vy) -> r == inject_Z (qsign vx) * (m - inject_Z (adjust vy m k0) * Qabs vy))%Q.
Proof.
  intros vx vy mx q k Fx Fy Nx Ny Fm M0 M1 Hq Hk T. pose proof (Qabs_nz vy Ny) as Py. pose proof W1 as HW1.
  pose proof (half_pos vy Fy Ny) as Ph.
  unfold finish. set (ay := Qabs vy) in *.
  assert (Fay : inF F ay) by (apply inF_abs; auto).
  set (b := Qle_bool ay mx). set (m1 := rsub mx (if b then ay else 0)).
  assert (E1 : (m1 == if b then 0 else mx)%Q).
  { unfold m1, b. destruct (Qle_bool ay mx) eqn:E.
    - apply Qle_bool_iff in E. apply rsub_exact; [lra|]. apply inF_0, p1.
    - apply rsub_exact; [ring|auto]. }
  set (k0 := k + b2z b). set (q1 := swrap W (q + b2z b)).
  assert (Hq1 : q1 = swrap W k0) by (apply swrap_add; auto).
  assert (F1 : inF F m1) by (apply (rnd_inF F rnd Hr)).
  assert (B1 : (0 <= m1)%Q /\ (m1 < ay)%Q /\ (m1 + inject_Z k0 * ay == Qabs vx)%Q).
  { rewrite E1. unfold k0, b. destruct (Qle_bool ay mx) eqn:E; cbn [b2z]; rewrite inject_Z_plus, <- T.
    - apply Qle_bool_iff in E. change (inject_Z 1) with 1%Q. split; [lra|]. split; lra.
    - apply Qle_bool_false in E. change (inject_Z 0) with 0%Q. split; [lra|]. split; lra. }
  destruct B1 as (B1 & B2 & B3).
  destruct (half_tests vy m1 Fy Ny F1) as [T1 T2]; [fold ay; rewrite Qabs_pos; lra|].
  rewrite T1. set (t := qlt (half vy) m1) in *.
  set (m2 := if t then rsub m1 ay else m1). set (q2 := if t then swrap W (q1 + 1) else q1).
  assert (F2 : inF F m2) by (unfold m2; destruct t; [apply (rnd_inF F rnd Hr)|auto]).
  assert (B4 : (Qabs m2 <= ay)%Q).
  { unfold m2. destruct t; [|rewrite Qabs_pos; lra]. apply (rnd_abs_le_F F p1 rnd Hr); auto. rewrite Qabs_neg; lra. }
  destruct (half_tests vy m2 Fy Ny F2) as [_ T3]; auto. rewrite T3.
  set (t2 := Qeq_bool m2 (half vy) && (Z.rem q2 2 =? 1)).
  assert (Ht : t = true -> t2 = false).
  { intros Et. unfold t2. replace (Qeq_bool m2 (half vy)) with false; [reflexivity|]. symmetry. destruct (Qeq_bool m2 (half vy)) eqn:E; auto.
    apply Qeq_bool_iff in E. exfalso. unfold m2 in E. rewrite Et in E.
    assert (rsub m1 ay <= 0)%Q by (apply (rnd_le_F F rnd Hr); [apply inF_0, p1|lra]). lra. }
  assert (Ha : adjust vy m1 k0 = b2z (t || t2)).
  { unfold adjust. fold t. destruct t eqn:Et; [reflexivity|]. cbn [orb]. unfold t2, m2, q2. rewrite <- Hq1. reflexivity. }
  set (m3 := if t2 then rsub m2 ay else m2). set (q3 := if t2 then swrap W (q2 + 1) else q2).
  assert (Hq3 : q3 = swrap W (k0 + b2z (t || t2))).
  { unfold q3, q2. destruct t eqn:Et.
    - rewrite (Ht eq_refl). cbn [orb b2z]. apply swrap_add; auto.
    - cbn [orb]. destruct t2; cbn [b2z]; [apply swrap_add; auto|]. rewrite Z.add_0_r. auto. }
  assert (E3 : inF F (m1 - inject_Z (b2z (t || t2)) * ay) -> (m3 == m1 - inject_Z (b2z (t || t2)) * ay)%Q).
  { unfold m3, m2. destruct t eqn:Et.
    - rewrite (Ht eq_refl). cbn [orb b2z]. change (inject_Z 1) with 1%Q. intros I. apply rsub_exact; [ring|auto].
    - cbn [orb]. destruct t2; cbn [b2z]; [change (inject_Z 1) with 1%Q|change (inject_Z 0) with 0%Q]; intros I; [apply rsub_exact; [ring|auto]|ring]. }
  assert (F3 : inF F m3) by (unfold m3; destruct t2; [apply (rnd_inF F rnd Hr)|auto]).
  assert (E4 : (rm (if qlt vx 0 then -1 else 1) m3 == inject_Z (qsign vx) * m3)%Q).
  { unfold RemquoModel.rm, qsign. rewrite (rnd_comp F rnd Hr _ (inject_Z (if qlt vx 0 then -1 else 1) * m3)) by (destruct (qlt vx 0); reflexivity).
    apply (rnd_id F rnd Hr). destruct (qlt vx 0); [apply (inF_comp F (- m3)); [change (inject_Z (-1)) with (-1)%Q; ring|]; apply inF_opp; auto; apply p1|].
    apply (inF_comp F m3); [change (inject_Z 1) with 1%Q; ring|auto]. }
  assert (Hmod : (q3 mod 2 ^ W) mod 2 ^ qs = (k0 + b2z (t || t2)) mod 2 ^ qs).
  { rewrite Hq3, swrap_mod by auto. symmetry. apply Znumtheory.Zmod_div_mod; try (apply Z.pow_pos_nonneg; lia).
    exists (2 ^ (W - qs)). rewrite <- Z.pow_add_r by lia. f_equal. lia. }
  exists k0, m1, (rm (if qlt vx 0 then -1 else 1) m3). rewrite Ha.
  split; [unfold k0, b2z; destruct b; lia|]. split; auto. split; auto. split; auto. split; auto. split.
  - rewrite Hmod. f_equal; [f_equal|].
    + replace (if xorb (qlt vx 0) (qlt vy 0) then -1 else 1) with (qsign vx * qsign vy) by (unfold qsign; destruct (qlt vx 0), (qlt vy 0); reflexivity).
      apply swrap_small; auto. pose proof (Z.mod_pos_bound (k0 + b2z (t || t2)) (2 ^ qs) ltac:(apply Z.pow_pos_nonneg; lia)).
      pose proof (Z.pow_le_mono_r 2 qs (W - 1) ltac:(lia) ltac:(lia)). unfold qsign. destruct (qlt vx 0), (qlt vy 0); lia.
    + f_equal. apply eq_true_iff_eq. rewrite !qlt_true, E4. unfold qsign. destruct (qlt vx 0); [change (inject_Z (-1)) with (-1)%Q|change (inject_Z 1) with 1%Q]; split; lra.
  - intros I. rewrite E4, E3 by auto. reflexivity.
Qed.

(* the loop in general: quotient by excess or default selected with the half of
   the divisor as computed *)
Lemma digit_loop_spec : forall vx vy, inF F vx -> inF F vy -> ~ (vx == 0)%Q -> ~ (vy == 0)%Q ->
  real_e vx - es + 1 <= 5000 ->
  exists k0 m r, 0 <= k0 /\ (0 <= m)%Q /\ (m < Qabs vy)%Q /\ inF F m /\ (m + inject_Z k0 * Qabs vy == Qabs vx)%Q
  /\ digit_loop rnd p es W qs vx vy
     = Some (qsign vx * qsign vy * ((k0 + adjust vy m k0) mod 2 ^ qs), r, xorb (qlt vx 0) (qlt (inject_Z (qsign vx) * r) 0))
  /\ (inF F (m - inject_Z (adjust vy m k0) * Qabs vy) -> r == inject_Z (qsign vx) * (m - inject_Z (adjust vy m k0) * Qabs vy))%Q.
Proof.
  intros vx vy Fx Fy Nx Ny Hwd. destruct (before_finish vx vy Fx Fy Nx Ny Hwd) as (mx & q & k & E & H1 & H2 & H3 & H4 & H5 & H6).
  destruct (finish_spec vx vy mx q k) as (k0 & m & r & G1 & G2 & G3 & G4 & G5 & G6 & G7); auto.
  exists k0, m, r. rewrite E, G6. auto 10.
Qed.

(* a tie has a small quotient *)
Lemma tie_small : forall vx vy k0 m, inF F vx -> inF F vy -> ~ (vx == 0)%Q -> ~ (vy == 0)%Q -> 0 <= k0 ->
  (m + inject_Z k0 * Qabs vy == Qabs vx)%Q -> (2 * m == Qabs vy)%Q -> swrap W k0 = k0.
Proof.
  intros vx vy k0 m Fx Fy Nx Ny Hk T E.
  destruct (inF_abs vx Fx) as (a & c & A1 & A2 & _). destruct (inF_abs vy Fy) as (b & d & B1 & B2 & _).
  assert (X : (inject_Z a * p2 (c + 1) == inject_Z (2 * k0 + 1) * (inject_Z b * p2 d))%Q).
  { rewrite <- B1, p2_succ, inject_Z_plus, inject_Z_mult. change (inject_Z 2) with 2%Q. change (inject_Z 1) with 1%Q.
    setoid_replace (inject_Z a * (2 * p2 c))%Q with (2 * (inject_Z a * p2 c))%Q by ring. rewrite <- A1. rewrite <- T.
    setoid_replace (2 * (m + inject_Z k0 * Qabs vy))%Q with (2 * m + 2 * inject_Z k0 * Qabs vy)%Q by ring. rewrite E. ring. }
  apply dyadic_odd in X.
  - cbn [prec] in A2. pose proof W1. apply swrap_small; [lia|]. pose proof (Z.pow_le_mono_r 2 p W ltac:(lia) HW).
    assert (2 ^ W = 2 * 2 ^ (W - 1)) by (rewrite <- Z.pow_succ_r by lia; f_equal; lia).
    assert (0 < 2 ^ (W - 1)) by (apply Z.pow_pos_nonneg; lia).
    lia.
  - rewrite Z.odd_add, Z.odd_mul. reflexivity.
  - intros ->. pose proof (Qabs_nz vx Nx). change (inject_Z 0) with 0%Q in A1. lra.
Qed.
End Rq.
