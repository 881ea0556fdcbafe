(* The whole division scheme: scaling of the operands, reduced division,
   scaling of the result. *)
From Coq Require Import ZArith QArith Qround Qabs Lia Lqa Bool.
From Verif Require Import QUtil FpFormatModel FpFormatSpec SpecialModel SpecialSpec RoundSpec RoundProofs RoundRne VeltProofs DivModel DivCore DivProofs DivRange.
From Verif Require FpFormatProofs FpFormatProofs2.
Open Scope Z_scope.

Lemma Qle_bool_comp : forall a b c d, (a == c)%Q -> (b == d)%Q -> Qle_bool a b = Qle_bool c d.
Proof.
  intros a b c d E1 E2. destruct (Qle_bool a b) eqn:A; destruct (Qle_bool c d) eqn:B; auto.
  - apply Qle_bool_iff in A. rewrite E1, E2 in A. apply Qle_bool_iff in A. congruence.
  - apply Qle_bool_iff in B. rewrite <- E1, <- E2 in B. apply Qle_bool_iff in B. congruence.
Qed.
Lemma Qeq_bool_comp : forall a b, (a == b)%Q -> Qeq_bool a 0 = Qeq_bool b 0.
Proof.
  intros a b E. destruct (Qeq_bool a 0) eqn:A; destruct (Qeq_bool b 0) eqn:B; auto.
  - apply Qeq_bool_iff in A. rewrite E in A. apply Qeq_bool_iff in A. congruence.
  - apply Qeq_bool_iff in B. rewrite <- E in B. apply Qeq_bool_iff in B. congruence.
Qed.
Lemma Qle_false : forall a b, Qle_bool a b = false -> (b < a)%Q.
Proof. intros a b H. destruct (Qlt_le_dec b a); auto. apply Qle_bool_iff in q. congruence. Qed.
Lemma Qle_true : forall a b, (a <= b)%Q -> Qle_bool a b = true.
Proof. intros. apply Qle_bool_iff; auto. Qed.
Lemma Qlt_false : forall a b, (b < a)%Q -> Qle_bool a b = false.
Proof. intros a b H. destruct (Qle_bool a b) eqn:E; auto. apply Qle_bool_iff in E. lra. Qed.
Lemma p2_lt_inv : forall a b, (p2 a < p2 b)%Q -> a < b.
Proof. intros a b H. destruct (Z.lt_ge_cases a b); auto. pose proof (p2_le b a ltac:(lia)). lra. Qed.

Lemma mant_comp : forall a b, ~ (a == 0)%Q -> (a == b)%Q -> (mant a == mant b)%Q.
Proof.
  intros a b N E. unfold mant. rewrite (qlog2_comp (Qabs a) (Qabs b)); [rewrite E; reflexivity|apply FpFormatProofs.Qabs_nz; auto|rewrite E; reflexivity].
Qed.
Lemma mant_scale : forall v k, ~ (v == 0)%Q -> (mant (v * p2 k) == mant v)%Q.
Proof.
  intros v k N. pose proof (p2_pos k) as Pk. pose proof (FpFormatProofs.Qabs_nz v N) as Pv. destruct (qlog2_spec _ Pv) as [L U].
  assert (Av : (Qabs (v * p2 k) == Qabs v * p2 k)%Q) by (apply Qabs_mul_pos; auto).
  assert (Q : qlog2 (Qabs (v * p2 k)) = qlog2 (Qabs v) + k).
  { apply qlog2_unique; rewrite Av; [rewrite p2_plus; apply Qmult_le_compat_r; lra|].
    replace (qlog2 (Qabs v) + k + 1) with ((qlog2 (Qabs v) + 1) + k) by lia. rewrite p2_plus. apply Qmult_lt_r; auto. }
  unfold mant. rewrite Q, Av. replace (- (qlog2 (Qabs v) + k)) with (- qlog2 (Qabs v) + - k) by lia. rewrite p2_plus.
  pose proof (p2_inv k) as E. set (z := p2 (- qlog2 (Qabs v))) in *. clearbody z.
  transitivity (Qabs v * z * (p2 k * p2 (- k)))%Q; [ring|rewrite E; ring].
Qed.

Section S.
Variable G : fpfmt.
Hypothesis Hok : fmt_ok G.
Hypothesis Hs : sollya_ok G.
Notation p := (sprec G).
Notation em := (emin_normal G - (p - 1)).
Notation F := (mkF p None).
Notation Fb := (mkF p (Some em)).
Notation u := (p2 (- p)).
Notation ri := (rne F).
Notation rb := (rne Fb).

Lemma emax_emin : emin_normal G = 1 - emax G.
Proof. rewrite (FpFormatProofs.emax_eq G Hok). unfold emin_normal, bias. lia. Qed.
Lemma emax_pos : 1 <= emax G.
Proof. rewrite (FpFormatProofs.emax_eq G Hok). destruct Hok as [H _]. assert (2 ^ 1 <= 2 ^ (esz G - 1)) by (apply Z.pow_le_mono_r; lia). lia. Qed.
Lemma em_eq : em = emin_subnormal G.
Proof. unfold sollya_ok in Hs. rewrite Hs. unfold emin_normal, emin_subnormal. lia. Qed.

Lemma repr_in : forall v, representable G v -> inF F v /\ mult em v /\ (Qabs v < p2 (emax G + 1))%Q.
Proof.
  intros v (m & e & Hm & He & Hv). unfold sollya_ok in Hs. split; [|split].
  - exists m, e. split; auto. split; [|exact I]. cbn [prec]. rewrite Hs. lia.
  - apply (mult_le e); [rewrite em_eq, FpFormatProofs.emin_sub_eq; lia|]. exists m. auto.
  - rewrite Hv, Qabs_Qmult, (Qabs_pos (p2 e)) by (pose proof (p2_pos e); lra).
    change (Qabs (inject_Z m)) with (inject_Z (Z.abs m)). pose proof (p2_pos e) as Pe.
    apply Qlt_le_trans with (inject_Z (2 ^ (fsz G + 1)) * p2 e)%Q.
    + apply Qmult_lt_r; auto. rewrite <- Zlt_Qlt. auto.
    + destruct Hok as [_ Hf]. rewrite <- p2_Z by lia. rewrite <- p2_plus. apply p2_le. rewrite (FpFormatProofs.emax_eq G Hok). lia.
Qed.
Lemma repr_intro : forall e v, mult e v -> em <= e <= emax G - (p - 1) -> (Qabs v < p2 (p + e))%Q -> representable G v.
Proof.
  intros e v [m Hm] He Hv. exists m, e. unfold sollya_ok in Hs. split; [|split; auto].
  - rewrite Hm, Qabs_Qmult, (Qabs_pos (p2 e)) in Hv by (pose proof (p2_pos e); lra).
    rewrite p2_plus, (p2_Z p) in Hv by (destruct Hok; lia).
    change (Qabs (inject_Z m)) with (inject_Z (Z.abs m)) in Hv. apply Qmult_lt_r in Hv; [|apply p2_pos].
    rewrite <- Zlt_Qlt in Hv. rewrite <- Hs. auto.
  - rewrite em_eq, FpFormatProofs.emin_sub_eq in He. rewrite (FpFormatProofs.emax_eq G Hok) in He. lia.
Qed.
Lemma p2_repr : forall k, em <= k <= emax G -> representable G (p2 k).
Proof.
  intros k Hk. pose proof (p2_pos k). unfold sollya_ok in Hs. destruct Hok as [H1 H2]. pose proof emax_emin. pose proof emax_pos.
  apply (repr_intro (Z.max em (k - (p - 1)))); [apply mult_p2; lia|lia|].
  rewrite Qabs_pos by lra. apply p2_lt. lia.
Qed.

(* ---- the IEEE result of a rational ---- *)
Lemma fp_result_comp : forall a b, (a == b)%Q -> fp_result G a = fp_result G b.
Proof.
  intros a b E. unfold fp_result. assert (R : sollya_round G a = sollya_round G b).
  { unfold sollya_round. rewrite (Qeq_bool_comp a b E). destruct (Qeq_bool b 0) eqn:Z0; auto.
    assert (Na : ~ (a == 0)%Q) by (intros X; rewrite E in X; apply Qeq_bool_iff in X; congruence).
    rewrite (qlog2_comp (Qabs a) (Qabs b)); [|apply FpFormatProofs.Qabs_nz; auto|rewrite E; reflexivity].
    set (t := Z.max (qlog2 (Qabs b)) (emin_normal G) - (p - 1)).
    rewrite (qrne_comp (a / p2 t) (b / p2 t)); [reflexivity|rewrite E; reflexivity]. }
  rewrite R. rewrite (Qle_bool_comp 0 a 0 b); auto; reflexivity.
Qed.

Lemma round_cases : forall v, ~ (v == 0)%Q ->
  ((Qabs (rb v) < p2 (emax G + 1))%Q /\ exists r, sollya_round G v = Some r /\ (r == rb v)%Q)
  \/ ((p2 (emax G + 1) <= Qabs (rb v))%Q /\ sollya_round G v = None).
Proof.
  intros v N. unfold sollya_round, rne. destruct (Qeq_bool v 0) eqn:E; [apply Qeq_bool_iff in E; contradiction|].
  assert (R : rexp Fb v = Z.max (qlog2 (Qabs v)) (emin_normal G) - (p - 1)) by (unfold rexp; cbn [emin prec]; lia).
  rewrite R. set (r := (inject_Z _ * p2 _)%Q). destruct (Qle_bool (p2 (emax G + 1)) (Qabs r)) eqn:L.
  - right. split; auto. apply Qle_bool_iff; auto.
  - left. split; [apply Qle_false; auto|]. exists r. split; auto. reflexivity.
Qed.
Lemma p_pos : 1 <= p.
Proof. unfold sollya_ok in Hs. destruct Hok. lia. Qed.
Lemma Hrb0 : nearest_in Fb rb. Proof. apply rne_nearest. cbn [prec]. apply p_pos. Qed.

Lemma rb_sign : forall v, ~ (rb v == 0)%Q -> Qle_bool 0 (rb v) = Qle_bool 0 v.
Proof.
  intros v N. destruct (Qlt_le_dec v 0) as [C|C].
  - rewrite (Qlt_false 0 v) by auto. apply Qlt_false.
    assert (rb v <= 0)%Q by (apply (rnd_le_F Fb rb Hrb0); [apply inF_0; apply p_pos|lra]). 
    destruct (Qlt_le_dec (rb v) 0); auto. exfalso. apply N. lra.
  - rewrite (Qle_true 0 v) by auto. apply Qle_true. apply (rnd_ge_F Fb rb Hrb0); [apply inF_0; apply p_pos|lra].
Qed.

(* rounding twice *)
Lemma fp_result_round : forall v, ~ (rb v == 0)%Q ->
  datum_eq (datum_of (fp_result G (rb v))) (datum_of (fp_result G v)).
Proof.
  intros v N. assert (Nv : ~ (v == 0)%Q).
  { intros E. apply N. rewrite (rnd_comp Fb rb Hrb0 _ _ E). reflexivity. }
  assert (Id : (rb (rb v) == rb v)%Q) by (apply (rnd_id Fb rb Hrb0), (rnd_inF Fb rb Hrb0)).
  unfold fp_result. rewrite (rb_sign v N).
  destruct (round_cases v Nv) as [(A & r & R & Er)|(A & R)]; destruct (round_cases (rb v) N) as [(B & r' & R' & Er')|(B & R')]; rewrite R, R'; rewrite Id in B; try lra.
  - assert (E : (r' == r)%Q) by (rewrite Er', Id, Er; reflexivity). rewrite (Qeq_bool_comp r' r E).
    destruct (Qeq_bool r 0) eqn:Z0; [destruct (Qle_bool 0 v); reflexivity|].
    cbn [datum_of]. rewrite (Qeq_bool_comp r' r E), Z0. exact E.
  - destruct (Qle_bool 0 v); reflexivity.
Qed.

(* ---- scaling of an operand ---- *)
Definition expo (v : Q) : Z := clamp G (exp_extract G v).

Lemma scaled : 12 <= p -> em <= - 3 * p - 4 -> forall v, representable G v -> ~ (v == 0)%Q ->
  let k := expo v in
  emin_normal G <= k < emax G /\ inF F (v * p2 (- k)) /\ mult (1 - p) (v * p2 (- k)) /\ (Qabs v < 4 * p2 k)%Q
  /\ ((p2 k <= Qabs v)%Q \/ k = emin_normal G).
Proof.
  intros Hp Hem v Rv Nv k. destruct (repr_in v Rv) as (Iv & Mv & Bv). pose proof emax_emin as Ee. pose proof emax_pos as Pe.
  assert (Is : inF F (v * p2 (- k))).
  { apply (inF_comp F (sgn false * p2 (- k) * v)%Q); [unfold sgn; ring|]. apply (inF_sc p). auto. }
  unfold k, expo, clamp, exp_extract. replace (- (emax G - 1)) with (emin_normal G) by lia.
  destruct (Qle_bool (p2 (emin_normal G)) (Qabs v)) eqn:C.
  - apply Qle_bool_iff in C. pose proof (FpFormatProofs.Qabs_nz v Nv) as Pv. destruct (qlog2_spec _ Pv) as [L U].
    set (q := qlog2 (Qabs v)) in *.
    assert (Q1 : emin_normal G <= q) by (assert (emin_normal G < q + 1); [apply p2_lt_inv; lra|lia]).
    assert (Q2 : q <= emax G) by (assert (q < emax G + 1); [apply p2_lt_inv; lra|lia]).
    assert (Mq : mult (q + 1 - p) v) by (apply (in_grid p Hp); auto).
    set (t := Z.max (Z.min q (emax G - 1)) (emin_normal G)).
    assert (T : t <= q <= t + 1) by (unfold t; lia). assert (T2 : emin_normal G <= t < emax G) by (unfold t; lia).
    split; [lia|]. split; [|split; [|split]].
    + unfold k, expo, clamp, exp_extract in Is. fold q in Is. rewrite (Qle_true _ _ C) in Is. replace (- (emax G - 1)) with (emin_normal G) in Is by lia. exact Is.
    + apply (mult_le ((q + 1 - p) + - t)); [lia|]. apply mult_mul; auto. apply mult_p2; lia.
    + eapply Qlt_le_trans; [exact U|]. setoid_replace 4%Q with (p2 2) by reflexivity. rewrite <- p2_plus. apply p2_le. lia.
    + left. eapply Qle_trans; [|exact L]. apply p2_le. lia.
  - apply Qle_false in C. unfold k, expo, clamp, exp_extract in Is. rewrite (Qlt_false _ _ C) in Is.
    replace (- (emax G - 1)) with (emin_normal G) in Is by lia.
    assert (T : Z.max (Z.min (bias G) (emax G - 1)) (emin_normal G) = emin_normal G) by (unfold emin_normal in *; lia).
    rewrite T in *. split; [lia|]. split; [auto|]. split; [|split].
    + apply (mult_le (em + - emin_normal G)); [lia|]. apply mult_mul; auto. apply mult_p2; lia.
    + pose proof (p2_pos (emin_normal G)). lra.
    + auto.
Qed.

Section N.
Hypothesis Hp : 12 <= p.
Hypothesis Hem : em <= - 3 * p - 4.
Variable seed : Q -> Q.
Variable sub : Q -> Q -> Q -> Z -> fpv.

(* the quotient of the scaled operands *)
Definition svx (x : Q) : Q := rn G (x * p2 (- expo x))%Q.
Definition recp (n : nat) (y : Q) : Q := compute_reduced_reciprocal (rn G) (seed (svx y)) (svx y) n.
Definition q1 (n : nat) (x y : Q) : Q := snd (compute_reduced_division (rn G) (svx x) (svx y) (recp n y)).

Lemma svx_eq : forall x, representable G x -> ~ (x == 0)%Q -> (svx x == x * p2 (- expo x))%Q.
Proof.
  intros x Rx Nx. destruct (scaled Hp Hem x Rx Nx) as (_ & I1 & M1 & _). unfold svx, rn, fmt_of.
  rewrite (rne_agree p em Hp); [|left; apply (mult_le (1 - p)); auto; lia].
  apply (rnd_id F ri); auto. apply (Hri p Hp).
Qed.

(* accuracy asked of the seed, on scaled operands *)
Definition seed_ok (e : Q) : Prop := forall d, inF F d -> mult (1 - p) d -> ~ (d == 0)%Q -> (Qabs d <= 4)%Q ->
  inF F (seed d) /\ (Qabs (1 - d * seed d) <= e)%Q.

Lemma numerical_unfold : forall n x y, numerical G seed sub n x y =
  let r := scaling_div_result G (q1 n x y) (expo x) (expo y) in
  if is_subnormal G r then sub (recp n y) (q1 n x y) (fst (compute_reduced_division (rn G) (svx x) (svx y) (recp n y))) (expo x - expo y) else r.
Proof.
  intros. unfold numerical, q1, recp, svx, expo. destruct (compute_reduced_division _ _ _ _) as [a b] eqn:E.
  cbn [fst snd]. reflexivity.
Qed.

Lemma reduced_quotient : forall m x y e E, representable G x -> representable G y -> ~ (x == 0)%Q -> ~ (y == 0)%Q ->
  (e <= 1 # 8)%Q -> seed_ok e -> (sq m e * sq m e + u * (6 * sq m e + 8 * u) <= E * u)%Q ->
  ((E <= 9 # 64)%Q \/ (E == 1 # 6)%Q) -> (mant y < 2 - 2 * E)%Q ->
  (q1 (S m) x y == ri (x * p2 (- expo x) / (y * p2 (- expo y))))%Q.
Proof.
  intros m x y e E Rx Ry Nx Ny E8 Hseed HE1 HE2 Hm.
  destruct (scaled Hp Hem x Rx Nx) as (_ & Ix & Mx & Bx & _). destruct (scaled Hp Hem y Ry Ny) as (_ & Iy & My & By & _).
  pose proof (svx_eq x Rx Nx) as Ex. pose proof (svx_eq y Ry Ny) as Ey.
  set (a := (x * p2 (- expo x))%Q) in *. set (b := (y * p2 (- expo y))%Q) in *.
  assert (Na : ~ (a == 0)%Q).
  { unfold a. intros Z0. apply Nx. apply (Qmult_inj_r _ _ (p2 (- expo x))); [apply p2_nz|]. rewrite Z0. ring. }
  assert (Nb : ~ (b == 0)%Q).
  { unfold b. intros Z0. apply Ny. apply (Qmult_inj_r _ _ (p2 (- expo y))); [apply p2_nz|]. rewrite Z0. ring. }
  assert (Ba : (Qabs b <= 4)%Q).
  { unfold b. rewrite Qabs_mul_pos by apply p2_pos. pose proof (p2_inv (expo y)) as K. pose proof (p2_pos (- expo y)) as P.
    assert (Qabs y * p2 (- expo y) <= 4 * p2 (expo y) * p2 (- expo y))%Q by (apply Qmult_le_compat_r; lra). lra. }
  assert (Ids : inF F (svx y)) by (apply (inF_comp F b); [symmetry; auto|auto]).
  assert (Mds : mult (1 - p) (svx y)) by (apply (mult_comp _ b); [symmetry; auto|auto]).
  assert (Ixs : inF F (svx x)) by (apply (inF_comp F a); [symmetry; auto|auto]).
  assert (Mxs : mult (1 - p) (svx x)) by (apply (mult_comp _ a); [symmetry; auto|auto]).
  assert (Nds : ~ (svx y == 0)%Q) by (rewrite Ey; auto). assert (Nxs : ~ (svx x == 0)%Q) by (rewrite Ex; auto).
  assert (Bds : (Qabs (svx y) <= 4)%Q) by (rewrite Ey; auto).
  destruct (Hseed (svx y) Ids Mds Nds Bds) as [Is Hse].
  unfold q1, recp, rn, fmt_of.
  rewrite (reduced_correct_bounded p em Hp Hem m (svx x) (svx y) (seed (svx y)) e E); auto.
  - apply (rnd_comp F ri (Hri p Hp)). rewrite Ex, Ey. reflexivity.
  - rewrite (mant_comp (svx y) b Nds Ey). unfold b. rewrite mant_scale; auto.
Qed.

Lemma num_nz_zero : forall q, ~ (q == 0)%Q -> is_zero (Num q) = false.
Proof.
  intros q N. unfold is_zero, is_plus_zero, is_minus_zero, num_is_zero. cbn [andb orb].
  destruct (Qeq_bool q 0) eqn:E; [apply Qeq_bool_iff in E; contradiction|]. reflexivity.
Qed.
Lemma fp_mul_num : forall a b, ~ (a == 0)%Q -> ~ (b == 0)%Q -> fp_mul G (Num a) (Num b) = fp_result G (a * b)%Q.
Proof.
  intros a b Na Nb. unfold fp_mul. rewrite (num_nz_zero a Na), (num_nz_zero b Nb). reflexivity.
Qed.
Lemma fp_result_repr : forall v, representable G v -> ~ (v == 0)%Q -> exists r, fp_result G v = Num r /\ (r == v)%Q.
Proof.
  intros v R N. destruct (FpFormatProofs.round_id G Hok Hs v R) as (r & E & Er). exists r. split; auto.
  unfold fp_result. rewrite E. destruct (Qeq_bool r 0) eqn:Z0; auto. apply Qeq_bool_iff in Z0. rewrite Er in Z0. contradiction.
Qed.

(* multiplying back by the power of two *)
Lemma scaling_ok : forall q ex ey, ~ (q == 0)%Q -> em <= ex - ey <= emax G ->
  scaling_div_result G q ex ey = fp_result G (q * p2 (ex - ey))%Q.
Proof.
  intros q ex ey Nq Hk. unfold scaling_div_result. rewrite (fp_mul_num (p2 ex) (p2 (- ey))) by apply p2_nz.
  assert (E : (p2 ex * p2 (- ey) == p2 (ex - ey))%Q) by (rewrite <- p2_plus; reflexivity).
  rewrite (fp_result_comp _ _ E). destruct (fp_result_repr (p2 (ex - ey)) (p2_repr _ Hk) (p2_nz _)) as (r & -> & Er).
  rewrite fp_mul_num; auto; [|rewrite Er; apply p2_nz]. apply fp_result_comp. rewrite Er. reflexivity.
Qed.

(* main result: for operands of any sign and exponent, normal or subnormal,
   the scheme returns the IEEE quotient (overflow to infinity included),
   provided the exponents are less than emax + 1 apart and the quotient is not
   below the smallest normal number *)
Theorem numerical_correct_partial : forall m x y e E, representable G x -> representable G y -> ~ (x == 0)%Q -> ~ (y == 0)%Q ->
  (e <= 1 # 8)%Q -> seed_ok e -> (sq m e * sq m e + u * (6 * sq m e + 8 * u) <= E * u)%Q ->
  ((E <= 9 # 64)%Q \/ (E == 1 # 6)%Q) -> (mant y < 2 - 2 * E)%Q ->
  expo x - expo y <= emax G -> (p2 (emin_normal G) <= Qabs (x / y))%Q ->
  datum_eq (datum_of (numerical G seed sub (S m) x y)) (datum_of (fp_result G (x / y))).
Proof.
  intros m x y e E Rx Ry Nx Ny E8 Hseed HE1 HE2 Hm Hk Hn.
  pose proof (reduced_quotient m x y e E Rx Ry Nx Ny E8 Hseed HE1 HE2 Hm) as Q1.
  destruct (scaled Hp Hem x Rx Nx) as (Kx & _ & _ & Bx & _). destruct (scaled Hp Hem y Ry Ny) as (Ky & _ & _ & By & Ly).
  set (ex := expo x) in *. set (ey := expo y) in *.
  set (v := (x * p2 (- ex) / (y * p2 (- ey)))%Q) in *.
  assert (Ev : (v * p2 (ex - ey) == x / y)%Q).
  { unfold v. replace (ex - ey) with (ex + - ey) by lia. rewrite p2_plus. pose proof (p2_inv ex) as Ie.
    setoid_replace (x * p2 (- ex) / (y * p2 (- ey)) * (p2 ex * p2 (- ey)))%Q with ((p2 ex * p2 (- ex)) * (x / y))%Q by (field; split; auto; apply p2_nz).
    rewrite Ie. ring. }
  pose proof emax_emin as Ee. pose proof emax_pos as Pe.
  assert (Lk : em <= ex - ey).
  { destruct Ly as [Ly|Ly]; [|lia].
    assert (Lq : (p2 (emin_normal G) < p2 (2 + (ex - ey)))%Q).
    { eapply Qle_lt_trans; [exact Hn|]. assert (Ay : (0 < Qabs y)%Q) by (apply FpFormatProofs.Qabs_nz; auto).
      assert (Eq : (Qabs (x / y) * Qabs y == Qabs x)%Q) by (rewrite <- Qabs_Qmult; apply Qabs_wd; field; auto).
      apply (Qmult_lt_r _ _ (Qabs y) Ay). rewrite Eq. eapply Qlt_le_trans; [exact Bx|].
      apply Qle_trans with (p2 (2 + (ex - ey)) * p2 ey)%Q.
      - rewrite <- p2_plus. replace (2 + (ex - ey) + ey) with (2 + ex) by lia. rewrite p2_plus. setoid_replace (p2 2) with 4%Q by reflexivity. lra.
      - apply mle; auto. pose proof (p2_pos (2 + (ex - ey))). lra. }
    apply p2_lt_inv in Lq. unfold sollya_ok in Hs. lia. }
  assert (Ab : (Qabs (x / y) == Qabs v * p2 (ex - ey))%Q) by (rewrite <- Ev; apply Qabs_mul_pos, p2_pos).
  assert (Sc : (rb (x / y) == ri v * p2 (ex - ey))%Q).
  { rewrite <- (rne_scale p em Hp v (ex - ey)).
    - apply (rnd_comp Fb rb Hrb0). symmetry; auto.
    - rewrite <- Ab. replace (em + p - 1) with (emin_normal G) by lia. auto. }
  assert (Lr : (p2 (emin_normal G) <= Qabs (rb (x / y)))%Q).
  { apply (rnd_abs_ge_F Fb p_pos rb Hrb0); auto; [|pose proof (p2_pos (emin_normal G)); lra].
    apply (inF_intro Fb p_pos em); [apply mult_p2; lia|unfold exp_ok; cbn [emin]; lia|].
    rewrite Qabs_pos by (pose proof (p2_pos (emin_normal G)); lra). apply p2_le. cbn [prec]. lia. }
  pose proof (p2_pos (emin_normal G)) as P0.
  assert (Nr : ~ (rb (x / y) == 0)%Q). { intros Z0. rewrite Z0 in Lr. change (Qabs 0) with 0%Q in Lr. lra. }
  rewrite numerical_unfold. cbv zeta. fold ex ey.
  assert (Nq : ~ (q1 (S m) x y == 0)%Q). { rewrite Q1. intros Z0. apply Nr. rewrite Sc, Z0. ring. }
  rewrite (scaling_ok _ ex ey Nq) by lia.
  assert (Eq : (q1 (S m) x y * p2 (ex - ey) == rb (x / y))%Q) by (rewrite Q1, Sc; reflexivity).
  rewrite (fp_result_comp _ _ Eq).
  assert (NS : is_subnormal G (fp_result G (rb (x / y))) = false).
  { unfold fp_result. assert (Id : (rb (rb (x / y)) == rb (x / y))%Q) by (apply (rnd_id Fb rb Hrb0), (rnd_inF Fb rb Hrb0)).
    destruct (round_cases (rb (x / y)) Nr) as [(A & r & R & Er)|(A & R)]; rewrite R; [|destruct (Qle_bool 0 (rb (x / y))); reflexivity].
    rewrite Id in Er. rewrite (Qeq_bool_comp _ _ Er). destruct (Qeq_bool (rb (x / y)) 0) eqn:Z0; [apply Qeq_bool_iff in Z0; contradiction|].
    cbn [is_subnormal]. rewrite Qle_true; auto. rewrite Er. auto. }
  rewrite NS. apply fp_result_round. auto.
Qed.

(* when the exponents are further apart, the power of two itself overflows:
   no finite result is returned, whatever the seed and the number of iterations *)
Theorem numerical_overflow_refuted : forall n x y q, expo x - expo y = emax G + 1 -> numerical G seed sub n x y <> Num q.
Proof.
  intros n x y q Hk. rewrite numerical_unfold. cbv zeta. unfold scaling_div_result.
  rewrite (fp_mul_num (p2 (expo x)) (p2 (- expo y))) by apply p2_nz.
  assert (E : (p2 (expo x) * p2 (- expo y) == p2 (emax G + 1))%Q) by (rewrite <- p2_plus, <- Hk; reflexivity).
  rewrite (fp_result_comp _ _ E). pose proof (p2_pos (emax G + 1)) as P.
  assert (R : fp_result G (p2 (emax G + 1)) = PInf).
  { unfold fp_result. pose proof emax_emin as Ee. pose proof emax_pos as Pe.
    assert (Id : (rb (p2 (emax G + 1)) == p2 (emax G + 1))%Q).
    { apply (rnd_id Fb rb Hrb0). apply (inF_intro Fb p_pos (emax G + 1)); [apply mult_p2; lia|unfold exp_ok; cbn [emin]; lia|].
      rewrite Qabs_pos by lra. apply p2_le. cbn [prec]. lia. }
    destruct (round_cases _ (p2_nz (emax G + 1))) as [(A & _)|(A & R)].
    - exfalso. rewrite Id in A. rewrite Qabs_pos in A by lra. lra.
    - rewrite R, Qle_true by lra. reflexivity. }
  rewrite R. generalize (q1 n x y); intros w. unfold fp_mul.
  replace (is_nan (Num w) || is_nan PInf)%bool with false by reflexivity.
  replace (is_infty (Num w)) with false by reflexivity. replace (is_infty PInf) with true by reflexivity.
  destruct (is_zero (Num w)); [discriminate|]. unfold signed. destruct (xorb _ _); discriminate.
Qed.
(* ... although the quotient is a number of the format when the significand of
   x is less than that of y *)
Theorem overflow_quotient_finite : forall x y, representable G x -> representable G y -> ~ (x == 0)%Q -> ~ (y == 0)%Q ->
  (qlog2 (Qabs x) - qlog2 (Qabs y) <= emax G + 1) -> (mant x < mant y)%Q ->
  exists r, sollya_round G (x / y) = Some r.
Proof.
  intros x y Rx Ry Nx Ny Hk Hm. destruct (repr_in x Rx) as (Ix & _). destruct (repr_in y Ry) as (Iy & _).
  pose proof (mant_in p x Ix) as Mx. pose proof (mant_in p y Iy) as My.
  destruct (mant_range x Nx) as [X1 X2]. destruct (mant_range y Ny) as [Y1 Y2].
  apply (FpFormatProofs2.round_below_omega G Hok Hs).
  set (a := mant x) in *. set (b := mant y) in *. pose proof (DivCore.u_pos p) as Pu. pose proof (DivCore.u_small p Hp) as Su.
  pose proof (mant_max p Hp b My Y1 Y2) as B3.
  assert (Ab : (a <= b - 2 * u)%Q).
  { assert (G1 : mult (0 + 1 - p) a) by (apply in_grid; auto; rewrite Qabs_pos by lra; rewrite p2_0; auto).
    assert (G2 : mult (0 + 1 - p) b) by (apply in_grid; auto; rewrite Qabs_pos by lra; rewrite p2_0; auto).
    pose proof (mult_minus _ _ _ G2 G1) as G3. assert (N3 : ~ (b - a == 0)%Q) by (intros Z0; lra).
    pose proof (mult_nz _ _ G3 N3) as L. rewrite Qabs_pos in L by lra. pose proof (pu1 p) as P1. replace (0 + 1 - p) with (1 - p) in L by lia. lra. }
  assert (Eq : (Qabs (x / y) == a / b * p2 (qlog2 (Qabs x) - qlog2 (Qabs y)))%Q).
  { set (i := qlog2 (Qabs x)) in *. set (j := qlog2 (Qabs y)) in *.
    assert (Ay : (0 < Qabs y)%Q) by (apply FpFormatProofs.Qabs_nz; auto).
    assert (E1 : (Qabs (x / y) * Qabs y == Qabs x)%Q) by (rewrite <- Qabs_Qmult; apply Qabs_wd; field; auto).
    assert (E2 : (Qabs x == a * p2 i)%Q) by (unfold a, mant; fold i; transitivity (Qabs x * (p2 i * p2 (- i)))%Q; [rewrite p2_inv; ring|ring]).
    assert (E3 : (Qabs y == b * p2 j)%Q) by (unfold b, mant; fold j; transitivity (Qabs y * (p2 j * p2 (- j)))%Q; [rewrite p2_inv; ring|ring]).
    clearbody a b i j.
    apply (Qmult_inj_r _ _ (Qabs y)); [lra|]. rewrite E1, E3, E2. replace i with ((i - j) + j) at 1 by lia. rewrite p2_plus. field. lra. }
  rewrite Eq. clear Eq.
  assert (Q : (a / b <= 1 - u)%Q).
  { apply Qle_shift_div_r; [lra|]. assert (u * b <= u * 2)%Q by (apply mle; lra). lra. }
  assert (Q0 : (0 <= a / b)%Q) by (apply Qle_shift_div_l; lra).
  apply Qle_trans with ((1 - u) * p2 (emax G + 1))%Q.
  - apply Qle_trans with (a / b * p2 (emax G + 1))%Q; [apply mle; auto; apply p2_le; lia|]. apply Qmult_le_compat_r; auto. pose proof (p2_pos (emax G + 1)). lra.
  - unfold get_omega. rewrite p2_succ. unfold sollya_ok in Hs. replace (- fsz G) with (1 - p) by lia. pose proof (pu1 p) as P1. rewrite P1. lra.
Qed.

(* double rounding: a quotient just below the smallest normal number, rounded
   first to p digits then to the subnormal grid *)
Theorem double_rounding_refuted : forall m d e E, inF F d -> ((4 # 3) < d)%Q -> (d < 2 - 2 * E)%Q ->
  (e <= 1 # 8)%Q -> seed_ok e -> (sq m e * sq m e + u * (6 * sq m e + 8 * u) <= E * u)%Q ->
  ((E <= 9 # 64)%Q \/ (E == 1 # 6)%Q) ->
  let x := ((d - 2 * u) * p2 (emin_normal G))%Q in
  datum_eq (datum_of (numerical G seed sub (S m) x d)) (DFin (p2 (emin_normal G)))
  /\ datum_eq (datum_of (fp_result G (x / d))) (DFin ((1 - 2 * u) * p2 (emin_normal G))).
Proof.
  intros m d e E Id D1 D2 E8 Hseed HE1 HE2 x. pose proof (DivCore.u_pos p) as Pu. pose proof (DivCore.u_small p Hp) as Su.
  pose proof emax_emin as Ee. pose proof emax_pos as Pe. pose proof (pu1 p) as P1.
  set (w := p2 (emin_normal G)) in *. assert (Pw : (0 < w)%Q) by apply p2_pos.
  assert (EE : (0 <= E)%Q).
  { destruct (Qlt_le_dec E 0) as [N|N]; auto. assert (E * u < 0 * u)%Q by (apply Qmult_lt_r; auto).
    assert (0 <= sq m e * sq m e)%Q by (destruct (Qlt_le_dec (sq m e) 0); [setoid_replace (sq m e * sq m e)%Q with ((- sq m e) * (- sq m e))%Q by ring|]; apply Qmult_le_0_compat; lra).
    exfalso. destruct (Hseed 1%Q) as [_ H1].
    - apply (inF_comp F (p2 0)); [apply p2_0|]. apply (inF_intro F (C1' p Hp) 0); [apply mult_p2; lia|exact I|].
      rewrite Qabs_pos by (rewrite p2_0; lra). apply p2_le. cbn [prec]. lia.
    - apply (mult_comp _ (p2 0)); [apply p2_0|]. apply mult_p2. lia.
    - discriminate.
    - change (Qabs 1) with 1%Q. lra.
    - assert (E0 : (0 <= e)%Q) by (pose proof (Qabs_nonneg (1 - 1 * seed 1)); lra).
      destruct (sq_le m e E0 E8) as [S0 _]. assert (0 <= u * (6 * sq m e + 8 * u))%Q by (apply Qmult_le_0_compat; lra). lra. }
  assert (D2' : (d < 2)%Q) by lra.
  assert (Md : mult (0 + 1 - p) d) by (apply in_grid; auto; rewrite Qabs_pos by lra; rewrite p2_0; lra).
  replace (0 + 1 - p) with (1 - p) in Md by lia.
  assert (Ix : inF F (d - 2 * u)).
  { apply (grid_in p Hp 0); [replace (0 + 1 - p) with (1 - p) by lia; apply mult_minus; auto; apply (mult_comp _ (p2 (1 - p))); [lra|apply mult_p2; lia]|].
    rewrite Qabs_pos by lra. change (0 + 1) with 1. setoid_replace (p2 1) with 2%Q by reflexivity. lra. }
  assert (Mdu : mult (1 - p) (d - 2 * u)%Q).
  { apply mult_minus; auto; apply (mult_comp _ (p2 (1 - p))); [lra|apply mult_p2; lia]. }
  assert (Rd : representable G d).
  { apply (repr_intro (1 - p)); auto; [lia|]. rewrite Qabs_pos by lra. replace (p + (1 - p)) with 1 by lia. setoid_replace (p2 1) with 2%Q by reflexivity. lra. }
  assert (Rx : representable G x).
  { apply (repr_intro em); [| |].
    - unfold x. apply (mult_le ((1 - p) + emin_normal G)); [lia|]. apply mult_mul; auto. apply mult_p2; lia.
    - lia.
    - unfold x, w. rewrite Qabs_mul_pos by apply p2_pos. rewrite Qabs_pos by lra. replace (p + em) with (1 + emin_normal G) by lia.
      rewrite p2_plus. setoid_replace (p2 1) with 2%Q by reflexivity. apply Qmult_lt_r; [apply p2_pos|lra]. }
  assert (Nd : ~ (d == 0)%Q) by lra. assert (Dx : (1 < d - 2 * u)%Q) by lra.
  assert (Px : (w < x)%Q). { unfold x. assert (1 * w < (d - 2 * u) * w)%Q by (apply Qmult_lt_r; auto). lra. }
  assert (Nx : ~ (x == 0)%Q) by lra.
  assert (Lx : qlog2 (Qabs x) = emin_normal G).
  { apply qlog2_unique; rewrite Qabs_pos by lra; [fold w; lra|]. rewrite p2_succ. fold w. unfold x. apply Qmult_lt_r; auto. lra. }
  assert (Ld : qlog2 (Qabs d) = 0).
  { apply qlog2_unique; rewrite Qabs_pos by lra; [rewrite p2_0; lra|]. setoid_replace (p2 (0 + 1)) with 2%Q by reflexivity. lra. }
  assert (W1 : (w <= 1)%Q) by (unfold w; rewrite <- p2_0; apply p2_le; lia).
  assert (Kx : expo x = emin_normal G).
  { unfold expo, clamp, exp_extract. rewrite Lx. rewrite Qle_true by (rewrite Qabs_pos by lra; fold w; lra). lia. }
  assert (E2 : 2 <= emax G) by lia.
  assert (Kd : expo d = 0).
  { unfold expo, clamp, exp_extract. rewrite Ld. rewrite Qle_true by (rewrite Qabs_pos by lra; fold w; lra). lia. }
  assert (Hmant : (mant d < 2 - 2 * E)%Q).
  { unfold mant. rewrite Ld. change (- 0) with 0. rewrite p2_0, Qabs_pos by lra. lra. }
  pose proof (reduced_quotient m x d e E Rx Rd Nx Nd E8 Hseed HE1 HE2 Hmant) as Q1. rewrite Kx, Kd in Q1.
  set (h := (2 * u / d)%Q).
  assert (Hd : (h * d == 2 * u)%Q) by (unfold h; field; lra).
  assert (h1 : (u < h)%Q). { unfold h. apply Qlt_shift_div_l; [lra|]. assert (u * d < u * 2)%Q by (rewrite !(Qmult_comm u); apply Qmult_lt_r; auto). lra. }
  assert (h2 : (h < (3 # 2) * u)%Q). { unfold h. apply Qlt_shift_div_r; [lra|]. assert (u * (4 # 3) < u * d)%Q by (rewrite !(Qmult_comm u); apply Qmult_lt_r; auto). lra. }
  assert (Eq : (x * p2 (- emin_normal G) / (d * p2 (- 0)) == 1 - h)%Q).
  { unfold x. change (- 0) with 0. rewrite p2_0. pose proof (p2_inv (emin_normal G)) as Iw. fold w in Iw.
    transitivity ((d - 2 * u) * (w * p2 (- emin_normal G)) / d)%Q; [field; lra|]. rewrite Iw. unfold h. field. lra. }
  assert (R1 : (ri (1 - h) == 1 - u)%Q).
  { pose proof (pu_m1 p) as Pm. assert (P2 : (p2 (- 1 + 1 - p) == u)%Q) by (replace (- 1 + 1 - p) with (- p) by lia; reflexivity).
    apply (round_to p Hp ri (- 1)); [apply (Hri p Hp)| | | |].
    - setoid_replace (p2 (- 1)) with (1 # 2)%Q by reflexivity. lra.
    - change (- 1 + 1) with 0. rewrite p2_0. lra.
    - replace (- 1 + 1 - p) with (- p) by lia. apply mult_minus; [apply (mult_comp _ (p2 0)); [apply p2_0|apply mult_p2; lia]|apply mult_p2; lia].
    - rewrite P2. rewrite Qabs_neg by lra. lra. }
  assert (Q1' : (q1 (S m) x d == 1 - u)%Q) by (rewrite Q1, (rnd_comp F ri (Hri p Hp) _ _ Eq); exact R1).
  (* the two subnormal roundings *)
  assert (T : forall v k, (0 < v)%Q -> (v < w)%Q -> ~ (inject_Z k == 0)%Q -> k <= 2 ^ (p - 1) -> 0 <= k -> qrne (v / (2 * u * w)) = k -> datum_eq (datum_of (fp_result G v)) (DFin (inject_Z k * (2 * u * w)))).
  { intros v k V0 Vw Nk Kb K0 Hq. assert (Nv : ~ (v == 0)%Q) by lra.
    assert (Ew : (p2 em == 2 * u * w)%Q) by (replace em with ((1 - p) + emin_normal G) by lia; rewrite p2_plus, P1; reflexivity).
    assert (Lv : qlog2 (Qabs v) < emin_normal G).
    { assert (Av : (0 < Qabs v)%Q) by (rewrite Qabs_pos; lra). destruct (qlog2_spec _ Av) as [L _]. apply p2_lt_inv. fold w.
      rewrite Qabs_pos in L at 2 by lra. lra. }
    assert (Rb : (rb v == inject_Z k * (2 * u * w))%Q).
    { unfold rne. destruct (Qeq_bool v 0) eqn:Z0; [apply Qeq_bool_iff in Z0; contradiction|].
      assert (Rx' : rexp Fb v = em) by (unfold rexp; cbn [emin prec]; lia). rewrite Rx'.
      rewrite (qrne_comp (v / p2 em) (v / (2 * u * w))) by (rewrite Ew; reflexivity). rewrite Hq, Ew. reflexivity. }
    assert (Puw : (0 < 2 * u * w)%Q) by (apply Qmult_lt_0_compat; lra).
    assert (Bk : (inject_Z k * (2 * u * w) <= w)%Q).
    { apply Qle_trans with (inject_Z (2 ^ (p - 1)) * (2 * u * w))%Q; [apply Qmult_le_compat_r; [rewrite <- Zle_Qle; auto|lra]|].
      rewrite <- (p2_Z (p - 1)) by lia. rewrite <- P1. rewrite Qmult_assoc, <- p2_plus. replace (p - 1 + (1 - p)) with 0 by lia. rewrite p2_0. lra. }
    assert (Kp : (0 <= inject_Z k)%Q) by (change 0%Q with (inject_Z 0); rewrite <- Zle_Qle; auto).
    assert (B0 : (0 <= inject_Z k * (2 * u * w))%Q) by (apply Qmult_le_0_compat; lra).
    unfold fp_result. destruct (round_cases v Nv) as [(A & r & R & Er)|(A & R)]; rewrite R.
    - assert (Er' : (r == inject_Z k * (2 * u * w))%Q) by (rewrite Er; auto).
      assert (Nr : Qeq_bool r 0 = false).
      { destruct (Qeq_bool r 0) eqn:Z0; auto. apply Qeq_bool_iff in Z0. exfalso. apply Nk. rewrite Er' in Z0. apply Qmult_integral in Z0. destruct Z0; [auto|lra]. }
      rewrite Nr. cbn [datum_of]. rewrite Nr. exact Er'.
    - exfalso. rewrite Rb, Qabs_pos in A by auto.
      assert (p2 (emax G + 1) <= p2 (emin_normal G))%Q by (fold w; lra). pose proof (p2_lt (emin_normal G) (emax G + 1) ltac:(lia)). lra. }
  assert (HN : (p2 (p - 1) * (2 * u) == 1)%Q) by (rewrite <- P1, <- p2_plus; replace (p - 1 + (1 - p)) with 0 by lia; apply p2_0).
  set (N := 2 ^ (p - 1)) in *. assert (EN : (p2 (p - 1) == inject_Z N)%Q) by (apply p2_Z; lia). rewrite EN in HN.
  assert (Npos : 2 <= N). { unfold N. change 2 with (2 ^ 1) at 1. apply Z.pow_le_mono_r; lia. }
  assert (Neven : Z.even N = true). { unfold N. rewrite Z.even_pow by lia. reflexivity. }
  assert (Uw : ~ (2 * u * w == 0)%Q). { assert (0 < 2 * u * w)%Q by (apply Qmult_lt_0_compat; lra). lra. }
  split.
  - rewrite numerical_unfold. cbv zeta. rewrite Kx, Kd.
    assert (Nq : ~ (q1 (S m) x d == 0)%Q) by (rewrite Q1'; lra).
    rewrite (scaling_ok _ _ _ Nq) by lia. replace (emin_normal G - 0) with (emin_normal G) by lia. fold w.
    rewrite (fp_result_comp _ ((1 - u) * w)%Q) by (rewrite Q1'; reflexivity).
    assert (T1 : datum_eq (datum_of (fp_result G ((1 - u) * w))) (DFin (inject_Z N * (2 * u * w)))).
    { apply T.
      - apply Qmult_lt_0_compat; lra.
      - assert ((1 - u) * w < 1 * w)%Q by (apply Qmult_lt_r; auto; lra). lra.
      - change 0%Q with (inject_Z 0). rewrite inject_Z_injective. lia.
      - unfold N. lia.
      - lia.
      - assert (Ez : ((1 - u) * w / (2 * u * w) == inject_Z N - (1 # 2))%Q).
        { assert (Un : ~ (u == 0)%Q) by lra. assert (Wn : ~ (w == 0)%Q) by lra.
          transitivity ((inject_Z N * (2 * u) - u) / (2 * u))%Q; [rewrite HN; field; auto|field; auto]. }
        rewrite (qrne_comp _ _ Ez). rewrite (qrne_tie _ (N - 1)).
        + replace (Z.even (N - 1)) with false; [lia|]. rewrite Z.even_sub, Neven. reflexivity.
        + unfold Z.sub. rewrite inject_Z_plus. change (inject_Z (- (1))) with (-1)%Q. lra. }
    assert (Ew : (inject_Z N * (2 * u * w) == w)%Q) by (rewrite Qmult_assoc, HN; ring).
    destruct (datum_of (fp_result G ((1 - u) * w))) eqn:Df; try contradiction. cbn [datum_eq] in T1.
    unfold datum_of in Df. destruct (fp_result G ((1 - u) * w)) as [r| | | | | |] eqn:Fr; try discriminate.
    destruct (Qeq_bool r 0) eqn:Zr; [discriminate|]. injection Df as ->.
    cbn [is_subnormal]. rewrite Qle_true; [|rewrite T1, Ew, Qabs_pos by lra; fold w; lra].
    cbn [negb datum_of]. rewrite Zr. cbn [datum_eq]. rewrite T1. auto.
  - assert (E1 : (x / d == (1 - h) * w)%Q) by (unfold x, h; field; lra).
    rewrite (fp_result_comp _ _ E1).
    assert (T2 : datum_eq (datum_of (fp_result G ((1 - h) * w))) (DFin (inject_Z (N - 1) * (2 * u * w)))).
    { apply T.
      - apply Qmult_lt_0_compat; lra.
      - assert ((1 - h) * w < 1 * w)%Q by (apply Qmult_lt_r; auto; lra). lra.
      - change 0%Q with (inject_Z 0). rewrite inject_Z_injective. lia.
      - lia.
      - lia.
      - set (g := (h / (2 * u))%Q).
        assert (Eg : (g * (2 * u) == h)%Q) by (unfold g; field; lra).
        assert (g1 : ((1 # 2) < g)%Q) by (unfold g; apply Qlt_shift_div_l; lra).
        assert (g2 : (g < 3 # 4)%Q) by (unfold g; apply Qlt_shift_div_r; lra).
        assert (Ez : ((1 - h) * w / (2 * u * w) == inject_Z N - g)%Q).
        { assert (Un : ~ (u == 0)%Q) by lra. assert (Wn : ~ (w == 0)%Q) by lra.
          transitivity ((inject_Z N * (2 * u) - h) / (2 * u))%Q; [rewrite HN; field; auto|unfold g; field; auto]. }
        rewrite (qrne_comp _ _ Ez). pose proof (qrne_half (inject_Z N - g)) as Qh. set (t := qrne (inject_Z N - g)) in *. clearbody t.
        apply Qabs_Qle_condition in Qh. destruct Qh as [Q2 Q3].
        assert (L1 : (inject_Z (N - 2) < inject_Z t)%Q) by (unfold Z.sub; rewrite inject_Z_plus; change (inject_Z (- (2))) with (-2)%Q; lra).
        assert (L2 : (inject_Z t < inject_Z N)%Q) by lra. rewrite <- Zlt_Qlt in L1, L2. lia. }
    destruct (datum_of (fp_result G ((1 - h) * w))) eqn:Df; try contradiction. cbn [datum_eq] in *.
    rewrite T2. unfold Z.sub. rewrite inject_Z_plus. change (inject_Z (- (1))) with (-1)%Q.
    transitivity ((inject_Z N * (2 * u)) * w - 2 * u * w)%Q; [ring|rewrite HN; ring].
Qed.
End N.
End S.
