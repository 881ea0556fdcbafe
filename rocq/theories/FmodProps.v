(* Properties of the iterative floating-point modulo (C67). *)
From Coq Require Import ZArith QArith Qabs Qround Bool Lia Lqa Setoid.
From Verif Require Import QUtil FpFormatProofs FixedProps RoundSpec RoundProofs RoundRne RemquoProofs FmodModel.
Open Scope Z_scope.

(* C99 fmod: r = x - n y, |r| < |y|, r has the sign of x *)
Definition c_fmod (x y r : Q) : Prop :=
  (exists n, r == x - inject_Z n * y)%Q /\ (Qabs r < Qabs y)%Q /\ (0 <= r * x)%Q.
(* this determines r *)
Theorem c_fmod_unique : forall x y r r', ~ (x == 0)%Q -> c_fmod x y r -> c_fmod x y r' -> (r == r')%Q.
Proof.
  intros x y r r' Nx ([n E] & B & S) ([n' E'] & B' & S').
  assert (D : (r - r' == inject_Z (n' - n) * y)%Q) by (rewrite E, E'; unfold Z.sub; rewrite inject_Z_plus, inject_Z_opp; ring).
  assert (L : (Qabs (r - r') < Qabs y)%Q).
  { pose proof (Qabs_nonneg y).
    assert (X : (0 <= r /\ 0 <= r' \/ r <= 0 /\ r' <= 0)%Q).
    { destruct (Qlt_le_dec x 0) as [C|C].
      - right. split; [destruct (Qlt_le_dec 0 r) as [G|]; auto|destruct (Qlt_le_dec 0 r') as [G|]; auto]; exfalso.
        + assert (0 < r * - x)%Q by (apply Qmult_lt_0_compat; lra). lra.
        + assert (0 < r' * - x)%Q by (apply Qmult_lt_0_compat; lra). lra.
      - assert (0 < x)%Q by (destruct (Qlt_le_dec 0 x); auto; exfalso; apply Nx; lra).
        left. split; [destruct (Qlt_le_dec r 0) as [G|]; auto|destruct (Qlt_le_dec r' 0) as [G|]; auto]; exfalso.
        + assert (0 < - r * x)%Q by (apply Qmult_lt_0_compat; lra). lra.
        + assert (0 < - r' * x)%Q by (apply Qmult_lt_0_compat; lra). lra. }
    revert B B'. apply (Qabs_case r); apply (Qabs_case r'); apply (Qabs_case (r - r')); intros; lra. }
  rewrite D, Qabs_Qmult in L.
  destruct (Z.eq_dec (n' - n) 0) as [Z|N]; [rewrite Z in D; change (inject_Z 0) with 0%Q in D; lra|exfalso].
  assert (1 <= Qabs (inject_Z (n' - n)))%Q by (change (Qabs (inject_Z (n' - n))) with (inject_Z (Z.abs (n' - n))); change 1%Q with (inject_Z 1); apply inj_le_iff; lia).
  pose proof (Qabs_nonneg y). assert (1 * Qabs y <= Qabs (inject_Z (n' - n)) * Qabs y)%Q by (apply Qmult_le_compat_r; auto). lra.
Qed.

Lemma qtrunc_opp : forall q, qtrunc (- q) = - qtrunc q.
Proof.
  intros q. unfold qtrunc. destruct (Qle_bool 0 q) eqn:E1; destruct (Qle_bool 0 (- q)) eqn:E2;
    rewrite ?Qle_bool_iff in *; rewrite ?Qle_bool_false in *; try lra.
  - assert (E : (q == inject_Z 0)%Q) by (change (inject_Z 0) with 0%Q; lra). rewrite (Qfloor_int _ _ E).
    rewrite (Qfloor_int (- q) 0) by (rewrite E; reflexivity). reflexivity.
  - unfold Qceiling. rewrite (Qfloor_comp (- - q) q) by ring. reflexivity.
  - unfold Qceiling. lia.
Qed.

Section Fm.
Variable rnd : Q -> Q.
Variable p : Z.
Notation F := (mkF p None).
Hypothesis Hp : 2 <= p.
Hypothesis Hr : nearest_in F rnd.

Lemma Hp1 : 1 <= prec F. Proof. cbn. lia. Qed.
Lemma okF : forall e, exp_ok F e. Proof. intros; exact I. Qed.

Lemma int_inF : forall z, Z.abs z <= 2 ^ p -> inF F (inject_Z z).
Proof. intros z H. exists z, 0. split; [rewrite p2_0; ring|]. split; [exact H|apply okF]. Qed.
Lemma p2p_ge : 4 <= 2 ^ p.
Proof. change 4 with (2 ^ 2). apply Z.pow_le_mono_r; lia. Qed.

(* full exponent *)
Lemma full_mult : forall v, inF F v -> ~ (v == 0)%Q -> mult (qlog2 (Qabs v) + 1 - p) v.
Proof.
  intros v H N. destruct (inF_canonical F Hp1 v H) as (e & M & O & B & C). cbn [prec emin] in *.
  destruct C as [C|[C|C]]; [contradiction|discriminate|].
  rewrite (qlog2_unique (Qabs v) (p + e - 1)); auto; [|replace (p + e - 1 + 1) with (p + e) by lia; auto].
  replace (p + e - 1 + 1 - p) with e by lia. auto.
Qed.
End Fm.

(* the truncated rounded quotient is not one too small *)
Lemma tdiv_upper : forall rnd p a y, 2 <= p -> nearest_in (mkF p None) rnd -> inF (mkF p None) a -> inF (mkF p None) y -> ~ (y == 0)%Q ->
  Z.abs (tdiv rnd a y) <= 2 ^ p -> (a / y < inject_Z (tdiv rnd a y + 1))%Q.
Proof.
  intros rnd p a y Hp Hr Fa Fy Ny HT. set (T := tdiv rnd a y) in *. set (q := (a / y)%Q).
  destruct (Qlt_le_dec q (inject_Z (T + 1))) as [|G]; auto. exfalso.
  pose proof (p2p_ge p Hp) as P4.
  assert (Td : forall d, qtrunc d = T -> (d < inject_Z (T + 1))%Q).
  { intros d <-. rewrite inject_Z_plus. change (inject_Z 1) with 1%Q. pose proof (qtrunc_abs_lt d) as L. revert L. apply Qabs_case; intros; lra. }
  specialize (Td (rnd q) eq_refl).
  destruct (Z_lt_le_dec T (2 ^ p)) as [C|C].
  - assert (inject_Z (T + 1) <= rnd q)%Q; [|lra]. apply (rnd_ge_F (mkF p None) rnd Hr); auto. apply int_inF; lia.
  - assert (ET : T = 2 ^ p) by lia. rewrite ET in *. clear HT C. rewrite inject_Z_plus in *. change (inject_Z 1) with 1%Q in *.
    assert (F2 : inF (mkF p None) (inject_Z (2 ^ p + 2))).
    { exists (2 ^ (p - 1) + 1), 1. split; [|split; [|exact I]].
      - change (p2 1) with (inject_Z 2). rewrite <- inject_Z_mult. f_equiv. replace p with (p - 1 + 1) at 1 by lia. rewrite Z.pow_add_r by lia. change (2 ^ 1) with 2. lia.
      - cbn [prec]. assert (2 ^ p = 2 * 2 ^ (p - 1)) by (rewrite <- Z.pow_succ_r by lia; f_equal; lia). pose proof (Z.pow_pos_nonneg 2 (p - 1)). lia. }
    pose proof (rnd_near (mkF p None) rnd Hr q _ F2) as N. rewrite inject_Z_plus in *. change (inject_Z 2) with 2%Q in *.
    destruct (Qlt_le_dec (inject_Z (2 ^ p) + 2) q) as [C|C].
    + assert (inject_Z (2 ^ p) + 2 <= rnd q)%Q as L by (apply (rnd_ge_F (mkF p None) rnd Hr); [apply F2|lra]). lra.
    + destruct (Qeq_dec q (inject_Z (2 ^ p) + 1)) as [E|NE].
      * (* exact quotient 2^p + 1 *)
        destruct Fa as (ma & ea & Ea & Ba & _). destruct Fy as (my & ey & Ey & By & _).
        assert (X : (inject_Z ma * p2 ea == inject_Z (2 ^ p + 1) * (inject_Z my * p2 ey))%Q).
        { rewrite <- Ea, <- Ey, inject_Z_plus. change (inject_Z 1) with 1%Q. rewrite <- E. unfold q. field. auto. }
        apply dyadic_odd in X.
        -- cbn [prec] in Ba. lia.
        -- rewrite Z.odd_add. replace (Z.odd (2 ^ p)) with false; [reflexivity|]. symmetry. rewrite Z.odd_pow by lia. reflexivity.
        -- intros ->. change (inject_Z 0) with 0%Q in Ea. assert (a == 0)%Q as A0 by (rewrite Ea; ring).
           assert (q == 0)%Q by (unfold q; rewrite A0; unfold Qdiv; ring).
           assert (4 <= inject_Z (2 ^ p))%Q by (change 4%Q with (inject_Z 4); apply inj_le_iff; lia). lra.
      * assert (G2 : (inject_Z (2 ^ p) + 1 < q)%Q) by (destruct (Qlt_le_dec (inject_Z (2 ^ p) + 1) q); auto; exfalso; apply NE; lra).
        assert (D : (rnd q <= inject_Z (2 ^ p))%Q).
        { destruct (Qlt_le_dec (inject_Z (2 ^ p)) (rnd q)) as [X|]; auto. exfalso.
          assert (0 <= inject_Z (2 ^ p))%Q by (change 0%Q with (inject_Z 0); apply inj_le_iff; lia).
          destruct (inF_big (mkF p None) (Hp1 p Hp) 1 (rnd q) (rnd_inF _ rnd Hr _)) as [k Ek].
          - cbn [prec]. replace (p + 1 - 1) with p by lia. rewrite p2_Z by lia. rewrite Qabs_pos; lra.
          - assert (Ek2 : (rnd q == inject_Z (2 * k))%Q) by (rewrite Ek, inject_Z_mult; change (p2 1) with 2%Q; change (inject_Z 2) with 2%Q; ring).
            rewrite Ek2 in X, Td. apply (proj1 (inj_lt_iff _ _)) in X. change 1%Q with (inject_Z 1) in Td. rewrite <- inject_Z_plus in Td. apply (proj1 (inj_lt_iff _ _)) in Td. lia. }
        revert N. rewrite (Qabs_pos (inject_Z (2 ^ p) + 2 - q)) by lra. apply Qabs_case; intros; lra.
Qed.

Lemma nearest_opp : forall F rnd, nearest_in F rnd -> 1 <= prec F -> nearest_in F (fun x => - rnd (- x))%Q.
Proof.
  intros F rnd Hr Hp. split; [|split].
  - intros x y E. rewrite (rnd_comp F rnd Hr (- x) (- y)) by (rewrite E; reflexivity). reflexivity.
  - intros x. apply inF_opp; auto. apply (rnd_inF F rnd Hr).
  - intros x f Hf. pose proof (rnd_near F rnd Hr (- x) (- f) (inF_opp F Hp f Hf)) as N.
    setoid_replace (- rnd (- x) - x)%Q with (- (rnd (- x) - - x))%Q by ring. setoid_replace (f - x)%Q with (- (- f - - x))%Q by ring.
    rewrite !Qabs_opp. exact N.
Qed.

Section Fm2.
Variable rnd : Q -> Q.
Variable p : Z.
Notation F := (mkF p None).
Hypothesis Hp : 2 <= p.
Hypothesis Hr : nearest_in F rnd.
Let Hp1 : 1 <= prec F := Hp1 p Hp.

Lemma tdiv_lower : forall a y, inF F a -> inF F y -> ~ (y == 0)%Q ->
  Z.abs (tdiv rnd a y) <= 2 ^ p -> (inject_Z (tdiv rnd a y - 1) < a / y)%Q.
Proof.
  intros a y Fa Fy Ny HT.
  set (rn := (fun x => - rnd (- x))%Q).
  assert (E : tdiv rn (- a) y = - tdiv rnd a y).
  { unfold tdiv, rn. rewrite qtrunc_opp. f_equal. apply qtrunc_comp. apply (rnd_comp F rnd Hr). field. auto. }
  pose proof (tdiv_upper rn p (- a) y Hp (nearest_opp F rnd Hr Hp1) (inF_opp F Hp1 a Fa) Fy Ny) as U.
  rewrite E, Z.abs_opp in U. specialize (U HT).
  setoid_replace (- a / y)%Q with (- (a / y))%Q in U by (field; auto).
  replace (- tdiv rnd a y + 1) with (- (tdiv rnd a y - 1)) in U by lia. rewrite inject_Z_opp in U. lra.
Qed.

Lemma rem_bound : forall a y, inF F a -> inF F y -> ~ (y == 0)%Q ->
  Z.abs (tdiv rnd a y) <= 2 ^ p -> (Qabs (a - inject_Z (tdiv rnd a y) * y) < Qabs y)%Q.
Proof.
  intros a y Fa Fy Ny HT. pose proof (tdiv_upper rnd p a y Hp Hr Fa Fy Ny HT) as U. pose proof (tdiv_lower a y Fa Fy Ny HT) as L.
  set (T := tdiv rnd a y) in *. unfold Z.sub in L. rewrite inject_Z_plus in U, L. rewrite ?inject_Z_opp in L. change (inject_Z 1) with 1%Q in *.
  assert (E : (a - inject_Z T * y == (a / y - inject_Z T) * y)%Q) by (field; auto).
  rewrite E, Qabs_Qmult. pose proof (Qabs_nz y Ny) as Py.
  setoid_replace (Qabs y) with (1 * Qabs y)%Q at 2 by ring. apply Qmult_lt_r; auto.
  apply Qabs_case; intros; lra.
Qed.

(* ---- exactness of the fused multiply-add ---- *)
Definition ygrid (y : Q) : Z := qlog2 (Qabs y) + 1 - p.

Lemma rem_grid : forall a y n, inF F y -> ~ (y == 0)%Q -> mult (ygrid y) a -> mult (ygrid y) (a - inject_Z n * y).
Proof.
  intros a y n Fy Ny Ma. apply mult_minus; auto. destruct (full_mult p Hp y Fy Ny) as [k E]. exists (n * k). unfold ygrid. rewrite E at 1. rewrite inject_Z_mult. ring.
Qed.

Lemma big_tdiv : forall a y, 2 ^ p < Z.abs (tdiv rnd a y) -> (rnd (a / y) == inject_Z (tdiv rnd a y))%Q.
Proof.
  intros a y H. unfold tdiv in *. set (d := rnd (a / y)) in *.
  assert (L : (inject_Z (Z.abs (qtrunc d)) <= Qabs d)%Q).
  { unfold qtrunc in *. destruct (Qle_bool 0 d) eqn:E.
    - apply Qle_bool_iff in E. rewrite Qabs_pos by auto. assert (0 <= Qfloor d) by (change 0 with (Qfloor 0); apply Qfloor_resp_le; auto).
      rewrite Z.abs_eq by auto. apply Qfloor_le.
    - apply Qle_bool_false in E. rewrite Qabs_neg by lra. pose proof (Qle_ceiling d).
      assert (Qceiling d <= 0) by (change 0 with (Qceiling 0); apply Qceiling_resp_le; lra).
      rewrite Z.abs_neq by auto. rewrite inject_Z_opp. lra. }
  assert (B : (p2 (p + 1 - 1) < Qabs d)%Q).
  { replace (p + 1 - 1) with p by lia. rewrite p2_Z by lia. apply (Qlt_le_trans _ (inject_Z (Z.abs (qtrunc d)))); auto. apply inj_lt_iff. auto. }
  destruct (inF_big F Hp1 1 d (rnd_inF F rnd Hr _) B) as [k Ek].
  assert (E : (d == inject_Z (2 * k))%Q) by (rewrite Ek, inject_Z_mult; change (p2 1) with 2%Q; change (inject_Z 2) with 2%Q; ring).
  rewrite (qtrunc_int d (2 * k) E). exact E.
Qed.

Lemma big_step : forall a y, inF F a -> inF F y -> ~ (y == 0)%Q -> 2 ^ p < Z.abs (tdiv rnd a y) ->
  inF F (a - inject_Z (tdiv rnd a y) * y) /\ (Qabs (a - inject_Z (tdiv rnd a y) * y) <= p2 (- p) * Qabs a)%Q.
Proof.
  intros a y Fa Fy Ny HT. pose proof (big_tdiv a y HT) as Ed. pose proof (p2p_ge p Hp) as P4. set (T := tdiv rnd a y) in *.
  pose proof (Qabs_nz y Ny) as Py.
  assert (E : (a - inject_Z T * y == - ((rnd (a / y) - a / y) * y))%Q) by (rewrite Ed; field; auto).
  assert (Ea : (Qabs a == Qabs (a / y) * Qabs y)%Q) by (rewrite <- Qabs_Qmult; apply Qabs_wd; field; auto).
  assert (Rel : (Qabs (a - inject_Z T * y) <= p2 (- p) * Qabs a)%Q).
  { rewrite E, Qabs_opp, Qabs_Qmult, Ea, Qmult_assoc. apply Qmult_le_compat_r; [|lra]. apply (rnd_rel F Hp1 rnd Hr). reflexivity. }
  split; auto.
  set (d := rnd (a / y)) in *. assert (Fd : inF F d) by (apply (rnd_inF F rnd Hr)).
  assert (Nd : ~ (d == 0)%Q) by (intros Zd; rewrite Zd in Ed; change 0%Q with (inject_Z 0) in Ed; apply (proj1 (inject_Z_injective _ _)) in Ed; rewrite <- Ed in HT; change (Z.abs 0) with 0 in HT; lia).
  assert (Na : ~ (a == 0)%Q).
  { intros Z. apply Nd. unfold d. rewrite (rnd_comp F rnd Hr (a / y) 0) by (rewrite Z; unfold Qdiv; ring). apply (rnd_id F rnd Hr), inF_0; auto. }
  pose proof (full_mult p Hp d Fd Nd) as Md. pose proof (full_mult p Hp y Fy Ny) as My. pose proof (full_mult p Hp a Fa Na) as Ma.
  destruct (qlog2_spec _ (Qabs_nz d Nd)) as [D1 D2]. destruct (qlog2_spec _ Py) as [Y1 Y2]. destruct (qlog2_spec _ (Qabs_nz a Na)) as [A1 A2].
  set (ld := qlog2 (Qabs d)) in *. set (ly := qlog2 (Qabs y)) in *. set (la := qlog2 (Qabs a)) in *.
  assert (Hq : (Qabs (a / y) <= p2 (p + (ld + 1 - p)))%Q).
  { replace (p + (ld + 1 - p)) with (ld + 1) by lia. destruct (Qlt_le_dec (p2 (ld + 1)) (Qabs (a / y))) as [C|]; auto. exfalso.
    assert (p2 (ld + 1) <= Qabs d)%Q; [|lra]. unfold d. apply (rnd_abs_ge_F F Hp1 rnd Hr).
    - replace (ld + 1) with (p + (ld + 1 - p)) by lia. apply inF_p2; auto. exact I.
    - pose proof (p2_pos (ld + 1)); lra.
    - lra. }
  pose proof (rnd_half F Hp1 rnd Hr (ld + 1 - p) (a / y) (okF p _) Hq) as Hh. fold d in Hh.
  assert (B : (Qabs (a - inject_Z T * y) <= p2 (ld + ly + 1 - p))%Q).
  { rewrite E, Qabs_opp, Qabs_Qmult. apply (Qle_trans _ (p2 (ld + 1 - p - 1) * Qabs y)); [apply Qmult_le_compat_r; lra|].
    replace (ld + ly + 1 - p) with ((ld + 1 - p - 1) + (ly + 1)) by lia. rewrite p2_plus.
    rewrite !(Qmult_comm (p2 (ld + 1 - p - 1))). apply Qmult_le_compat_r; [lra|]. pose proof (p2_pos (ld + 1 - p - 1)); lra. }
  assert (Hla : ld + ly - 1 <= la).
  { assert (Lq : (p2 (ld - 1) <= Qabs (a / y))%Q).
    { assert (Qabs d <= Qabs (a / y) + p2 (ld + 1 - p - 1))%Q.
      { revert Hh. apply (Qabs_case (d - a / y)); apply (Qabs_case d); apply (Qabs_case (a / y)); intros; lra. }
      assert (E2 : (p2 ld == 2 * p2 (ld - 1))%Q) by (rewrite <- p2_succ; replace (ld - 1 + 1) with ld by lia; reflexivity).
      pose proof (p2_le (ld + 1 - p - 1) (ld - 1) ltac:(lia)). lra. }
    assert (p2 (ld + ly - 1) < p2 (la + 1))%Q as X.
    { apply (Qle_lt_trans _ (Qabs a)); auto. rewrite Ea. replace (ld + ly - 1) with ((ld - 1) + ly) by lia. rewrite p2_plus.
      apply (Qle_trans _ (p2 (ld - 1) * Qabs y)).
      - rewrite !(Qmult_comm (p2 (ld - 1))). apply Qmult_le_compat_r; [auto|pose proof (p2_pos (ld - 1)); lra].
      - apply Qmult_le_compat_r; lra. }
    apply p2_lt_inv in X. lia. }
  apply (inF_intro F Hp1 (ld + 1 - p + (ly + 1 - p))); [|exact I|].
  - apply mult_minus; [apply (mult_le (la + 1 - p)); auto; lia|].
    apply (mult_comp _ (d * y)); [rewrite <- Ed; reflexivity|]. apply prod_mult; auto.
  - cbn [prec]. apply (Qle_trans _ _ _ B). apply p2_le. lia.
Qed.

Lemma small_step : forall a y, inF F a -> inF F y -> ~ (y == 0)%Q -> Z.abs (tdiv rnd a y) <= 2 ^ p ->
  (mult (ygrid y) a \/ Qabs a < Qabs y)%Q -> inF F (a - inject_Z (tdiv rnd a y) * y).
Proof.
  intros a y Fa Fy Ny HT C. pose proof (rem_bound a y Fa Fy Ny HT) as B. pose proof (Qabs_nz y Ny) as Py.
  destruct (qlog2_spec _ Py) as [Y1 Y2].
  destruct C as [M|L].
  - apply (inF_intro F Hp1 (ygrid y)); [apply rem_grid; auto|exact I|]. cbn [prec]. unfold ygrid.
    replace (p + (qlog2 (Qabs y) + 1 - p)) with (qlog2 (Qabs y) + 1) by lia. lra.
  - assert (Hq : (Qabs (a / y) < 1)%Q).
    { assert (Ea : (Qabs a == Qabs (a / y) * Qabs y)%Q) by (rewrite <- Qabs_Qmult; apply Qabs_wd; field; auto).
      apply (Qmult_lt_r _ _ _ Py). rewrite <- Ea. lra. }
    assert (F1 : inF F 1) by (change 1%Q with (inject_Z 1); apply int_inF; pose proof (p2p_ge p Hp); lia).
    assert (Fh : inF F (1 # 2)) by (exists 1, (-1); split; [reflexivity|]; split; [cbn [prec]; pose proof (p2p_ge p Hp); lia|exact I]).
    assert (Hd : (Qabs (rnd (a / y)) <= 1)%Q) by (apply (rnd_abs_le_F F Hp1 rnd Hr); auto; lra).
    unfold tdiv in *. set (d := rnd (a / y)) in *.
    assert (T1 : -1 <= qtrunc d <= 1).
    { unfold qtrunc. apply Qabs_le_iff in Hd. destruct Hd as [Hd1 Hd2]. destruct (Qle_bool 0 d) eqn:E.
      - apply Qle_bool_iff in E. split; [change (-1) with (Qfloor (-1)); apply Qfloor_resp_le; lra|change 1 with (Qfloor 1); apply Qfloor_resp_le; auto].
      - apply Qle_bool_false in E. split; [change (-1) with (Qceiling (-1)); apply Qceiling_resp_le; lra|change 1 with (Qceiling 1); apply Qceiling_resp_le; auto]. }
    assert (Pos : qtrunc d = 1 -> (1 # 2 <= a / y)%Q).
    { intros E. destruct (Qlt_le_dec (a / y) (1 # 2)) as [G|]; auto. exfalso.
      assert (d <= 1 # 2)%Q by (apply (rnd_le_F F rnd Hr); auto; lra).
      assert (L2 : (1 <= d)%Q).
      { unfold qtrunc in E. destruct (Qle_bool 0 d) eqn:E0.
        - pose proof (Qfloor_le d) as X. rewrite E in X. exact X.
        - apply Qle_bool_false in E0. assert (Qceiling d <= 0) by (change 0 with (Qceiling 0); apply Qceiling_resp_le; lra). lia. }
      lra. }
    assert (Neg : qtrunc d = -1 -> (a / y <= - (1 # 2))%Q).
    { intros E. destruct (Qlt_le_dec (- (1 # 2)) (a / y)) as [G|]; auto. exfalso.
      assert (- (1 # 2) <= d)%Q by (apply (rnd_ge_F F rnd Hr); [apply inF_opp; auto|lra]).
      assert (L2 : (d <= -1)%Q).
      { unfold qtrunc in E. destruct (Qle_bool 0 d) eqn:E0.
        - apply Qle_bool_iff in E0. assert (0 <= Qfloor d) by (change 0 with (Qfloor 0); apply Qfloor_resp_le; auto). lia.
        - pose proof (Qle_ceiling d) as X. rewrite E in X. exact X. }
      lra. }
    assert (Ea : (a == a / y * y)%Q) by (field; auto).
    assert (S : forall s, inF F s -> ~ (s == 0)%Q -> (Qabs s == Qabs y)%Q -> (1 # 2 <= a / s)%Q -> inF F (a - s)).
    { intros s Fs Ns Es Hs. assert (Eas : (a == a / s * s)%Q) by (field; auto).
      assert (L1 : (Qabs a < Qabs s)%Q) by lra.
      destruct (Qlt_le_dec s 0) as [C|C].
      - apply sterbenz_neg; auto.
        + assert ((1 # 2) * - s <= a / s * - s)%Q by (apply Qmult_le_compat_r; lra). lra.
        + revert L1. rewrite (Qabs_neg s) by lra. apply Qabs_case; intros; try lra.
      - assert (0 < s)%Q by (destruct (Qlt_le_dec 0 s); auto; exfalso; apply Ns; lra).
        assert ((1 # 2) * s <= a / s * s)%Q by (apply Qmult_le_compat_r; lra).
        apply sterbenz; auto; [lra|].
        revert L1. rewrite (Qabs_pos s) by lra. apply Qabs_case; intros; lra. }
    assert (K : qtrunc d = -1 \/ qtrunc d = 0 \/ qtrunc d = 1) by lia. destruct K as [K|[K|K]]; rewrite K.
    + apply (inF_comp F (a - - y)); [change (inject_Z (-1)) with (-1)%Q; ring|]. apply S.
      * apply inF_opp; auto.
      * intros Z. apply Ny. lra.
      * apply Qabs_opp.
      * specialize (Neg K). setoid_replace (a / - y)%Q with (- (a / y))%Q; [lra|]. field. auto.
    + apply (inF_comp F a); [change (inject_Z 0) with 0%Q; ring|auto].
    + apply (inF_comp F (a - y)); [change (inject_Z 1) with 1%Q; ring|]. apply S; auto. reflexivity.
Qed.

Lemma fms_exact : forall a y n, inF F (a - inject_Z n * y) -> (fms rnd n y a == a - inject_Z n * y)%Q.
Proof. intros a y n H. unfold fms. rewrite (rnd_comp F rnd Hr _ (a - inject_Z n * y)) by ring. apply (rnd_id F rnd Hr); auto. Qed.

Lemma small_tdiv : forall a y, ~ (y == 0)%Q -> (Qabs a <= p2 p * Qabs y)%Q -> Z.abs (tdiv rnd a y) <= 2 ^ p.
Proof.
  intros a y Ny B. pose proof (Qabs_nz y Ny) as Py.
  assert (Hq : (Qabs (a / y) <= p2 p)%Q).
  { assert (Ea : (Qabs a == Qabs (a / y) * Qabs y)%Q) by (rewrite <- Qabs_Qmult; apply Qabs_wd; field; auto).
    apply (Qmult_le_r _ _ _ Py). rewrite <- Ea. lra. }
  assert (Hd : (Qabs (rnd (a / y)) <= p2 p)%Q).
  { apply (rnd_abs_le_F F Hp1 rnd Hr); auto. replace p with (prec F + 0) at 2 by (cbn; lia). apply inF_p2; auto. exact I. }
  rewrite p2_Z in Hd by lia. apply Qabs_le_iff in Hd. destruct Hd as [H1 H2]. unfold tdiv, qtrunc. rewrite <- inject_Z_opp in H1.
  destruct (Qle_bool 0 (rnd (a / y))).
  - apply Qfloor_resp_le in H1, H2. rewrite Qfloor_Z in H1, H2. lia.
  - apply Qceiling_resp_le in H1, H2. rewrite Qceiling_Z in H1, H2. lia.
Qed.

Lemma loop_correct : forall n a y qi, inF F a -> inF F y -> ~ (y == 0)%Q -> mult (ygrid y) a ->
  (Qabs a <= p2 (p * Z.of_nat (S n)) * Qabs y)%Q -> (Z.abs qi <= 2 ^ p -> (Qabs a < Qabs y)%Q) ->
  exists r k, fmod_loop rnd p (S n) y a qi = Some r /\ inF F r /\ mult (ygrid y) r /\ (r == a - inject_Z k * y)%Q /\ (Qabs r < Qabs y)%Q.
Proof.
  induction n as [|n IH]; intros a y qi Fa Fy Ny Ma Ba Hq; cbn [fmod_loop]; destruct (Z.leb_spec (Z.abs qi) (2 ^ p)) as [C|C].
  - exists a, 0. split; [reflexivity|]. split; auto. split; auto. split; [change (inject_Z 0) with 0%Q; ring|auto].
  - assert (HT : Z.abs (tdiv rnd a y) <= 2 ^ p) by (apply small_tdiv; auto; change (Z.of_nat 1) with 1 in Ba; rewrite Z.mul_1_r in Ba; auto).
    pose proof (small_step a y Fa Fy Ny HT (or_introl Ma)) as Fs. pose proof (fms_exact _ _ _ Fs) as Ef.
    replace (Z.abs (tdiv rnd a y) <=? 2 ^ p) with true by (symmetry; apply Z.leb_le; auto).
    exists (fms rnd (tdiv rnd a y) y a), (tdiv rnd a y). split; [reflexivity|].
    split; [apply (rnd_inF F rnd Hr)|]. split; [apply (mult_comp _ _ _ (Qeq_sym _ _ Ef)); apply rem_grid; auto|]. split; [exact Ef|].
    rewrite Ef. apply rem_bound; auto.
  - exists a, 0. split; [reflexivity|]. split; auto. split; auto. split; [change (inject_Z 0) with 0%Q; ring|auto].
  - set (q := tdiv rnd a y).
    assert (Fs : inF F (a - inject_Z q * y)).
    { destruct (Z.le_gt_cases (Z.abs q) (2 ^ p)); [apply small_step; auto|apply big_step; auto]. }
    pose proof (fms_exact _ _ _ Fs) as Ef.
    destruct (IH (fms rnd q y a) y q) as (r & k & E & Fr & Mr & Er & Br); auto.
    + apply (rnd_inF F rnd Hr).
    + apply (mult_comp _ _ _ (Qeq_sym _ _ Ef)). apply rem_grid; auto.
    + rewrite Ef. pose proof (Qabs_nz y Ny) as Py. destruct (Z.le_gt_cases (Z.abs q) (2 ^ p)) as [C2|C2].
      * pose proof (rem_bound a y Fa Fy Ny C2) as B. fold q in B.
        assert (1 <= p2 (p * Z.of_nat (S n)))%Q by (rewrite <- p2_0; apply p2_le; lia).
        assert (1 * Qabs y <= p2 (p * Z.of_nat (S n)) * Qabs y)%Q by (apply Qmult_le_compat_r; lra). lra.
      * destruct (big_step a y Fa Fy Ny C2) as [_ B]. fold q in B.
        apply (Qle_trans _ _ _ B). apply (Qle_trans _ (p2 (- p) * (p2 (p * Z.of_nat (S (S n))) * Qabs y))).
        -- rewrite !(Qmult_comm (p2 (- p))). apply Qmult_le_compat_r; [auto|pose proof (p2_pos (- p)); lra].
        -- rewrite Qmult_assoc, <- p2_plus. replace (- p + p * Z.of_nat (S (S n))) with (p * Z.of_nat (S n)) by lia. lra.
    + intros C2. rewrite Ef. apply rem_bound; auto.
    + exists r, (q + k). change (match n with O => _ | S _ => _ end) with (fmod_loop rnd p (S n) y (fms rnd q y a) q) || idtac.
      split; [exact E|]. split; auto. split; auto. split; auto. rewrite Er, Ef, inject_Z_plus. ring.
Qed.
End Fm2.

Section Fm3.
Variable rnd : Q -> Q.
Variable p : Z.
Notation F := (mkF p None).
Hypothesis Hp : 2 <= p.
Hypothesis Hr : nearest_in F rnd.
Let Hp1 : 1 <= prec F := Hp1 p Hp.

Lemma grid_of_ge : forall x y, inF F x -> inF F y -> ~ (y == 0)%Q -> (Qabs y <= Qabs x)%Q -> mult (ygrid p y) x.
Proof.
  intros x y Fx Fy Ny L. pose proof (Qabs_nz y Ny) as Py.
  assert (Nx : ~ (x == 0)%Q) by (intros Zx; rewrite Zx in L; change (Qabs 0) with 0%Q in L; lra).
  apply (mult_le (qlog2 (Qabs x) + 1 - p)); [|apply full_mult; auto].
  destruct (qlog2_spec _ Py) as [Y1 _]. destruct (qlog2_spec _ (Qabs_nz x Nx)) as [_ X2].
  assert (X : (p2 (qlog2 (Qabs y)) < p2 (qlog2 (Qabs x) + 1))%Q) by lra. apply p2_lt_inv in X. unfold ygrid. lia.
Qed.

(* everything before the final sign correction *)
Lemma fmod_rem : forall n x y, inF F x -> inF F y -> ~ (y == 0)%Q -> (Qabs x <= p2 (p * Z.of_nat (S n)) * Qabs y)%Q ->
  exists r k, fmod_loop rnd p (S n) y (fms rnd (tdiv rnd x y) y x) (tdiv rnd x y) = Some r /\ inF F r /\
    (r == x - inject_Z k * y)%Q /\ (Qabs r < Qabs y)%Q /\ (mult (ygrid p y) r \/ (Qabs x < Qabs y)%Q /\ -1 <= k <= 1).
Proof.
  intros n x y Fx Fy Ny Bx. set (q := tdiv rnd x y). pose proof (Qabs_nz y Ny) as Py.
  destruct (Qlt_le_dec (Qabs x) (Qabs y)) as [L|L].
  - assert (HT : Z.abs q <= 1).
    { assert (Hq : (Qabs (x / y) < 1)%Q).
      { assert (Ea : (Qabs x == Qabs (x / y) * Qabs y)%Q) by (rewrite <- Qabs_Qmult; apply Qabs_wd; field; auto).
        apply (Qmult_lt_r _ _ _ Py). rewrite <- Ea. lra. }
      assert (F1 : inF F 1) by (change 1%Q with (inject_Z 1); apply int_inF; pose proof (p2p_ge p Hp); lia).
      assert (Hd : (Qabs (rnd (x / y)) <= 1)%Q) by (apply (rnd_abs_le_F F Hp1 rnd Hr); auto; lra).
      unfold q, tdiv, qtrunc. apply Qabs_le_iff in Hd. destruct Hd as [H1 H2]. destruct (Qle_bool 0 (rnd (x / y))).
      - apply Qfloor_resp_le in H1, H2. change (Qfloor 1) with 1 in *. change (Qfloor (- (1))) with (-1) in *. lia.
      - apply Qceiling_resp_le in H1, H2. change (Qceiling 1) with 1 in *. change (Qceiling (- (1))) with (-1) in *. lia. }
    pose proof (p2p_ge p Hp) as P4.
    assert (Fs : inF F (x - inject_Z q * y)) by (apply (small_step rnd p Hp Hr); auto; fold q; lia).
    pose proof (fms_exact rnd p Hr _ _ _ Fs) as Ef.
    exists (fms rnd q y x), q. cbn [fmod_loop]. replace (Z.abs q <=? 2 ^ p) with true by (symmetry; apply Z.leb_le; lia).
    split; [reflexivity|]. split; [apply (rnd_inF F rnd Hr)|]. split; [exact Ef|]. split; [rewrite Ef; apply (rem_bound rnd p Hp Hr); auto; fold q; lia|].
    right. split; auto. lia.
  - pose proof (grid_of_ge x y Fx Fy Ny L) as Mx.
    assert (Fs : inF F (x - inject_Z q * y)).
    { destruct (Z.le_gt_cases (Z.abs q) (2 ^ p)); [apply (small_step rnd p Hp Hr); auto|apply (big_step rnd p Hp Hr); auto]. }
    pose proof (fms_exact rnd p Hr _ _ _ Fs) as Ef.
    destruct (loop_correct rnd p Hp Hr n (fms rnd q y x) y q) as (r & k & E & Fr & Mr & Er & Br); auto.
    + apply (rnd_inF F rnd Hr).
    + apply (mult_comp _ _ _ (Qeq_sym _ _ Ef)). apply rem_grid; auto.
    + rewrite Ef. destruct (Z.le_gt_cases (Z.abs q) (2 ^ p)) as [C2|C2].
      * pose proof (rem_bound rnd p Hp Hr x y Fx Fy Ny C2) as B. fold q in B.
        assert (1 <= p2 (p * Z.of_nat (S n)))%Q by (rewrite <- p2_0; apply p2_le; lia).
        assert (1 * Qabs y <= p2 (p * Z.of_nat (S n)) * Qabs y)%Q by (apply Qmult_le_compat_r; lra). lra.
      * destruct (big_step rnd p Hp Hr x y Fx Fy Ny C2) as [_ B]. fold q in B.
        assert (p2 (- p) <= 1)%Q by (rewrite <- p2_0; apply p2_le; lia).
        assert (p2 (- p) * Qabs x <= 1 * Qabs x)%Q by (apply Qmult_le_compat_r; [auto|apply Qabs_nonneg]). lra.
    + intros C2. rewrite Ef. apply (rem_bound rnd p Hp Hr); auto.
    + exists r, (q + k). split; [exact E|]. split; auto. split; [rewrite Er, Ef, inject_Z_plus; ring|]. auto.
Qed.

Lemma sgn_test : forall v, Qle_bool 0 (rnd v) = true <-> (0 <= v)%Q.
Proof.
  intros v. rewrite Qle_bool_iff. split; intros H.
  - destruct (Qlt_le_dec v 0) as [C|]; auto. exfalso.
    (* an unbounded format does not round a negative number to zero *)
    pose proof (rnd_rel F Hp1 rnd Hr v eq_refl) as R. cbn [prec] in R.
    assert (p2 (- p) <= 1 # 2)%Q by (change (1 # 2)%Q with (p2 (-1)); apply p2_le; lia).
    assert (p2 (- p) * Qabs v <= (1 # 2) * Qabs v)%Q by (apply Qmult_le_compat_r; [auto|apply Qabs_nonneg]).
    revert R H1. rewrite (Qabs_neg v) by lra. apply Qabs_case; intros; lra.
  - apply (rnd_ge_F F rnd Hr); auto. apply inF_0; auto.
Qed.

Lemma same_sign_sum : forall r x y, (0 < x * y)%Q -> (r * x < 0)%Q -> (Qabs r < Qabs y)%Q ->
  (Qabs (r + y) < Qabs y)%Q /\ (0 <= (r + y) * x)%Q.
Proof.
  intros r x y S N B. destruct (Qlt_le_dec x 0) as [C|C].
  - assert (y < 0)%Q by (destruct (Qlt_le_dec y 0) as [|G]; auto; exfalso; assert (0 <= - x * y)%Q by (apply Qmult_le_0_compat; lra); lra).
    assert (0 < r)%Q by (destruct (Qlt_le_dec 0 r) as [|G]; auto; exfalso; assert (0 <= - r * - x)%Q by (apply Qmult_le_0_compat; lra); lra).
    rewrite (Qabs_pos r) in B by lra. rewrite (Qabs_neg y) in * by lra. rewrite (Qabs_neg (r + y)) by lra. split; [lra|].
    assert (0 <= - (r + y) * - x)%Q by (apply Qmult_le_0_compat; lra). lra.
  - assert (0 < y)%Q by (destruct (Qlt_le_dec 0 y) as [|G]; auto; exfalso; assert (0 <= x * - y)%Q by (apply Qmult_le_0_compat; lra); lra).
    assert (r < 0)%Q by (destruct (Qlt_le_dec r 0) as [|G]; auto; exfalso; assert (0 <= r * x)%Q by (apply Qmult_le_0_compat; lra); lra).
    rewrite (Qabs_neg r) in B by lra. rewrite (Qabs_pos y) in * by lra. rewrite (Qabs_pos (r + y)) by lra. split; [lra|].
    apply Qmult_le_0_compat; lra.
Qed.

(* with operands of the same sign the result is the C remainder *)
Theorem fmod_same_sign : forall n x y, inF F x -> inF F y -> (0 < x * y)%Q -> (Qabs x <= p2 (p * Z.of_nat (S n)) * Qabs y)%Q ->
  exists r, fmod rnd p (S n) x y = Some r /\ c_fmod x y r.
Proof.
  intros n x y Fx Fy S B.
  assert (Ny : ~ (y == 0)%Q) by (intros Zy; rewrite Zy in S; lra).
  destruct (fmod_rem n x y Fx Fy Ny B) as (r & k & E & Fr & Er & Br & G). unfold fmod. rewrite E.
  destruct (Qle_bool 0 (rnd (r * x))) eqn:T.
  - apply sgn_test in T. exists r. split; [reflexivity|]. split; [exists k; auto|]. auto.
  - assert (N : (r * x < 0)%Q) by (destruct (Qlt_le_dec (r * x) 0) as [|C]; auto; apply sgn_test in C; congruence).
    destruct (same_sign_sum r x y S N Br) as [B2 S2].
    assert (Es : (rnd (r + y) == r + y)%Q).
    { apply (rnd_id F rnd Hr). destruct G as [Mr|[Lx Hk]].
      - apply (inF_intro F Hp1 (ygrid p y)); [apply mult_plus; auto; apply full_mult; auto|exact I|].
        destruct (qlog2_spec _ (Qabs_nz y Ny)) as [_ Y2]. cbn [prec]. unfold ygrid. replace (p + (qlog2 (Qabs y) + 1 - p)) with (qlog2 (Qabs y) + 1) by lia. lra.
      - assert (K : k = -1 \/ k = 0 \/ k = 1) by lia. destruct K as [K|[K|K]]; subst k.
        + exfalso. change (inject_Z (-1)) with (-1)%Q in Er. rewrite Er in N.
          assert (0 <= x * x)%Q by (destruct (Qlt_le_dec x 0); [assert (0 <= - x * - x)%Q by (apply Qmult_le_0_compat; lra); lra|apply Qmult_le_0_compat; auto]). lra.
        + exfalso. change (inject_Z 0) with 0%Q in Er. rewrite Er in N.
          assert (0 <= x * x)%Q by (destruct (Qlt_le_dec x 0); [assert (0 <= - x * - x)%Q by (apply Qmult_le_0_compat; lra); lra|apply Qmult_le_0_compat; auto]). lra.
        + change (inject_Z 1) with 1%Q in Er. apply (inF_comp F x); auto. rewrite Er. ring. }
    exists (rnd (r + y)). split; [reflexivity|]. split; [|rewrite Es; auto].
    exists (k - 1). rewrite Es, Er. unfold Z.sub. rewrite inject_Z_plus. change (inject_Z (- (1))) with (-1)%Q. ring.
Qed.

(* with opposite signs it is the C remainder exactly when no correction is needed *)
Theorem fmod_opposite_sign : forall n x y, inF F x -> inF F y -> (x * y < 0)%Q -> (Qabs x <= p2 (p * Z.of_nat (S n)) * Qabs y)%Q ->
  exists r res, fmod rnd p (S n) x y = Some res /\ (exists k, r == x - inject_Z k * y)%Q /\ (Qabs r < Qabs y)%Q /\
   ((0 <= r * x)%Q /\ c_fmod x y res \/ (r * x < 0)%Q /\ (res == rnd (r + y))%Q /\ (Qabs y <= Qabs res)%Q).
Proof.
  intros n x y Fx Fy S B.
  assert (Ny : ~ (y == 0)%Q) by (intros Zy; rewrite Zy in S; lra).
  destruct (fmod_rem n x y Fx Fy Ny B) as (r & k & E & Fr & Er & Br & G). unfold fmod. rewrite E. exists r.
  destruct (Qle_bool 0 (rnd (r * x))) eqn:T.
  - apply sgn_test in T. exists r. split; [reflexivity|]. split; [exists k; auto|]. split; auto. left. split; auto. split; [exists k; auto|]. auto.
  - assert (N : (r * x < 0)%Q) by (destruct (Qlt_le_dec (r * x) 0) as [|C]; auto; apply sgn_test in C; congruence).
    exists (rnd (r + y)). split; [reflexivity|]. split; [exists k; auto|]. split; auto. right. split; auto. split; [reflexivity|].
    assert (SS : (0 < r /\ 0 < y \/ r < 0 /\ y < 0)%Q).
    { destruct (Qlt_le_dec x 0) as [C|C].
      - left. split.
        + destruct (Qlt_le_dec 0 r) as [|D]; auto; exfalso; assert (0 <= - r * - x)%Q by (apply Qmult_le_0_compat; lra); lra.
        + destruct (Qlt_le_dec 0 y) as [|D]; auto; exfalso; assert (0 <= - x * - y)%Q by (apply Qmult_le_0_compat; lra); lra.
      - right. split.
        + destruct (Qlt_le_dec r 0) as [|D]; auto; exfalso; assert (0 <= r * x)%Q by (apply Qmult_le_0_compat; lra); lra.
        + destruct (Qlt_le_dec y 0) as [|D]; auto; exfalso; assert (0 <= x * y)%Q by (apply Qmult_le_0_compat; lra); lra. }
    apply (rnd_abs_ge_F F Hp1 rnd Hr).
    + destruct (Qlt_le_dec y 0); [apply (inF_comp F (- y)); [rewrite Qabs_neg; [reflexivity|lra]|apply inF_opp; auto]|apply (inF_comp F y); [rewrite Qabs_pos; [reflexivity|lra]|auto]].
    + apply Qabs_nonneg.
    + destruct SS as [[? ?]|[? ?]]; [rewrite !Qabs_pos by lra|rewrite !Qabs_neg by lra]; lra.
Qed.

(* ... which fails on a whole family: an odd divisor of p bits below 2^(p+1)/3, negated,
   and the number just below three times its magnitude *)
Theorem fmod_opposite_sign_refuted : forall n k, let Y := 2 * k + 1 in 2 ^ (p - 1) < Y -> 3 * Y < 2 ^ (p + 1) ->
  let x := inject_Z (3 * Y - 1) in let y := inject_Z (- Y) in
  inF F x /\ inF F y /\ c_fmod x y (inject_Z (Y - 1)) /\
  exists r, fmod rnd p n x y = Some r /\ (r == inject_Z (- (Y + 1)))%Q /\ ~ c_fmod x y r.
Proof.
  intros n k Y L1 L2 x y.
  pose proof (Z.pow_pos_nonneg 2 (p - 1) ltac:(lia) ltac:(lia)) as PP.
  assert (E1 : 2 ^ p = 2 * 2 ^ (p - 1)) by (rewrite <- Z.pow_succ_r by lia; f_equal; lia).
  assert (E2 : 2 ^ (p + 1) = 4 * 2 ^ (p - 1)) by (replace (p + 1) with (p - 1 + 2) by lia; rewrite Z.pow_add_r by lia; lia).
  assert (EY : Y = 2 * k + 1) by reflexivity.
  assert (Fx : inF F x).
  { exists (3 * k + 1), 1. split; [change (p2 1) with (inject_Z 2); rewrite <- inject_Z_mult; unfold x; f_equiv; lia|]. split; [cbn [prec]; lia|exact I]. }
  assert (Fy : inF F y) by (apply int_inF; lia).
  assert (PY : (0 < inject_Z Y)%Q) by (change 0%Q with (inject_Z 0); apply inj_lt_iff; lia).
  assert (NY : ~ (inject_Z Y == 0)%Q) by lra.
  assert (Ey : (y == - inject_Z Y)%Q) by (unfold y; rewrite inject_Z_opp; reflexivity).
  assert (Ny : ~ (y == 0)%Q) by (intros Zy; rewrite Zy in Ey; lra).
  assert (Ex : (x == 3 * inject_Z Y - 1)%Q) by (unfold x; unfold Z.sub; rewrite inject_Z_plus, inject_Z_mult; change (inject_Z 3) with 3%Q; change (inject_Z (- (1))) with (-1)%Q; ring).
  assert (Eq : (x / y == - (3) + 1 / inject_Z Y)%Q) by (rewrite Ex, Ey; field; auto).
  assert (HL : (0 < 1 / inject_Z Y)%Q) by (apply Qlt_shift_div_l; auto; lra).
  assert (HU : (1 / inject_Z Y < p2 (1 - p))%Q).
  { apply Qlt_shift_div_r; auto. assert (X : (p2 (1 - p) * p2 (p - 1) == 1)%Q) by (rewrite <- p2_plus; replace (1 - p + (p - 1)) with 0 by lia; apply p2_0).
    rewrite <- X. apply Qmult_lt_l; [apply p2_pos|]. rewrite p2_Z by lia. apply inj_lt_iff. auto. }
  assert (H1h : (p2 (1 - p) <= 1 # 2)%Q) by (change (1 # 2)%Q with (p2 (-1)); apply p2_le; lia).
  set (d := rnd (x / y)).
  assert (F3 : inF F (- (3))) by (change (- (3))%Q with (inject_Z (-3)); apply int_inF; pose proof (p2p_ge p Hp); lia).
  pose proof (rnd_near F rnd Hr (x / y) _ F3) as Nr. fold d in Nr. rewrite Eq in Nr.
  rewrite (Qabs_neg (- (3) - (- (3) + 1 / inject_Z Y))) in Nr by lra.
  assert (Dd : (Qabs (d + 3) < p2 (2 - p))%Q).
  { replace (2 - p) with ((1 - p) + 1) by lia. rewrite p2_succ. revert Nr. apply (Qabs_case (d - (- (3) + 1 / inject_Z Y))); apply (Qabs_case (d + 3)); intros; lra. }
  assert (Hd : (d == - (3))%Q).
  { assert (Md : mult (2 - p) d).
    { apply (inF_big F Hp1); [apply (rnd_inF F rnd Hr)|]. cbn [prec]. replace (p + (2 - p) - 1) with 1 by lia. change (p2 1) with 2%Q.
      assert (p2 (2 - p) == 2 * p2 (1 - p))%Q by (rewrite <- p2_succ; replace (1 - p + 1) with (2 - p) by lia; reflexivity).
      revert Dd. apply (Qabs_case (d + 3)); apply (Qabs_case d); intros; lra. }
    assert (M3 : mult (2 - p) 3).
    { apply (mult_le 0); [lia|]. exists 3. rewrite p2_0. reflexivity. }
    pose proof (mult_small _ _ (mult_plus _ _ _ Md M3) Dd). lra. }
  assert (HT : tdiv rnd x y = -3) by (unfold tdiv; fold d; apply qtrunc_int; exact Hd).
  assert (Er : (fms rnd (-3) y x == -1)%Q).
  { unfold fms. rewrite (rnd_comp F rnd Hr _ (-1)) by (rewrite Ex, Ey; change (inject_Z (-3)) with (-3)%Q; ring).
    apply (rnd_id F rnd Hr). change (-1)%Q with (inject_Z (-1)). apply int_inF. pose proof (p2p_ge p Hp). lia. }
  split; auto. split; auto.
  assert (Ym1 : (inject_Z (Y - 1) == inject_Z Y - 1)%Q) by (unfold Z.sub; rewrite inject_Z_plus; reflexivity).
  assert (Yp1 : (inject_Z (- (Y + 1)) == - inject_Z Y - 1)%Q) by (rewrite inject_Z_opp, inject_Z_plus; change (inject_Z 1) with 1%Q; ring).
  assert (Y1 : (1 <= inject_Z Y)%Q) by (change 1%Q with (inject_Z 1); apply inj_le_iff; lia).
  assert (AY : (Qabs y == inject_Z Y)%Q) by (rewrite Qabs_neg; rewrite Ey; lra).
  split.
  { split; [|split].
    - exists (-2). rewrite Ym1, Ex, Ey. change (inject_Z (-2)) with (-2)%Q. ring.
    - rewrite AY, Ym1, Qabs_pos by lra. lra.
    - apply Qmult_le_0_compat; [rewrite Ym1; lra|rewrite Ex; lra]. }
  exists (rnd (fms rnd (-3) y x + y)). split; [|split].
  - assert (P8 : 4 <= 2 ^ p) by (apply p2p_ge; auto).
    unfold fmod. rewrite HT. destruct n; cbn [fmod_loop]; replace (Z.abs (-3) <=? 2 ^ p) with true by (symmetry; apply Z.leb_le; cbn; lia);
      (destruct (Qle_bool 0 (rnd (fms rnd (-3) y x * x))) eqn:T; [|reflexivity]; exfalso; apply sgn_test in T; rewrite Er, Ex in T; lra).
  - rewrite Yp1. rewrite (rnd_comp F rnd Hr _ (inject_Z (- (Y + 1)))) by (rewrite Er, Ey, Yp1; ring).
    rewrite <- Yp1. apply (rnd_id F rnd Hr). apply int_inF. lia.
  - intros (_ & B & _). rewrite AY in B.
    assert (E : (rnd (fms rnd (-3) y x + y) == - inject_Z Y - 1)%Q).
    { rewrite (rnd_comp F rnd Hr _ (inject_Z (- (Y + 1)))) by (rewrite Er, Ey, Yp1; ring).
      rewrite <- Yp1. apply (rnd_id F rnd Hr). apply int_inF. lia. }
    rewrite E, Qabs_neg in B by lra. lra.
Qed.
End Fm3.

(* the loop takes more than one turn on this one *)
Example fmod_case : exists r, fmod (rne (mkF 4 None)) 4 3 (inject_Z 15 * p2 20) 11 = Some r /\ (r == 4)%Q.
Proof. eexists. split; [vm_compute; reflexivity|reflexivity]. Qed.
Example fmod_case_one_turn : fmod (rne (mkF 4 None)) 4 0 (inject_Z 15 * p2 20) 11 = None.
Proof. vm_compute. reflexivity. Qed.
Example fmod_case_hyps : nearest_in (mkF 4 None) (rne (mkF 4 None)) /\ inF (mkF 4 None) (inject_Z 15 * p2 20) /\ inF (mkF 4 None) 11.
Proof.
  split; [apply rne_nearest; cbn; lia|]. split.
  - exists 15, 20. split; [reflexivity|]. split; [cbn; lia|exact I].
  - exists 11, 0. split; [reflexivity|]. split; [cbn; lia|exact I].
Qed.
Example fmod_refuted_case : let Y := 2 * 4 + 1 in 2 ^ (4 - 1) < Y /\ 3 * Y < 2 ^ (4 + 1).
Proof. cbn. lia. Qed.
Print Assumptions c_fmod_unique.
Print Assumptions fmod_same_sign.
Print Assumptions fmod_opposite_sign.
Print Assumptions fmod_opposite_sign_refuted.
