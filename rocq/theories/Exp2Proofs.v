(* The function 2^x: exactness of the reduction, values of the two reconstructions. *)
From Coq Require Import ZArith QArith Qabs Qround Bool List Lia Lqa.
From Verif Require Import QUtil FpFormatModel FpFormatSpec FpFormatProofs RoundSpec RoundProofs RoundRne RealLn2 RealUtil PowModel.
From Verif Require Import ExpModel ExpSpec ExpReduce ExpRecon ExpProofs Exp2Model.
Open Scope Z_scope.

Section Red.
Variables (p em : Z) (rnd : Q -> Q).
Let F := mkF p (Some em).
Hypothesis Hr : nearest_in F rnd.
Hypothesis Hp : 12 <= p.
Hypothesis Hem : em <= - p - 4.
Variable x : Q.
Hypothesis Hx : inF F x.
Let k := Qfloor x.
Let d := (x - inject_Z k)%Q.
Let Hp1 : 1 <= prec F. Proof. cbn [prec F]. lia. Qed.

Lemma d_range : (0 <= d < 1)%Q.
Proof.
  unfold d, k. pose proof (Qfloor_le x) as A. pose proof (Qlt_floor x) as B. rewrite inject_Z_plus in B.
  change (inject_Z 1) with 1%Q in B. lra.
Qed.

Lemma in_01 : inF F 0 /\ inF F 1.
Proof.
  split; [apply inF_0; exact Hp1|]. apply (inF_intro F Hp1 0).
  - exists 1. rewrite p2_0. reflexivity.
  - unfold exp_ok, F; cbn [emin]. lia.
  - cbn [prec F]. rewrite Qabs_pos by lra. change 1%Q with (p2 0). apply p2_le. lia.
Qed.

Lemma vx_r_range : (0 <= vx_r rnd x <= 1)%Q.
Proof.
  pose proof d_range as [A B]. destruct in_01 as [I0 I1]. unfold vx_r. fold k. fold d. split.
  - apply (rnd_ge_F F rnd Hr); auto.
  - apply (rnd_le_F F rnd Hr); auto. lra.
Qed.

Lemma mult_int : forall e z, e <= 0 -> mult e (inject_Z z).
Proof.
  intros e z H. apply (mult_le 0); auto. exists z. rewrite p2_0. ring.
Qed.

(* the fraction is exact but in (-1/2, 0) *)
Lemma vx_r_exact : (0 <= x)%Q \/ (x <= - (1 # 2))%Q -> (vx_r rnd x == d)%Q.
Proof.
  intros H. unfold vx_r. fold k. fold d. apply (rnd_id F rnd Hr). pose proof d_range as [D0 D1].
  assert (K0 : (0 <= x)%Q -> 0 <= k).
  { intros X. unfold k. change 0 with (Qfloor 0). apply Qfloor_resp_le. exact X. }
  destruct (Qlt_le_dec (Qabs x) (1 # 2)) as [S|B].
  - destruct H as [H|H].
    + assert (k = 0) as E.
      { pose proof (K0 H). unfold k in *. pose proof (Qfloor_le x) as A.
        destruct (Z.le_gt_cases 1 (Qfloor x)) as [C|C]; [|lia]. exfalso. rewrite Zle_Qle in C. change (inject_Z 1) with 1%Q in C.
        apply Qabs_Qlt_condition in S. lra. }
      apply (inF_comp F x); auto. unfold d. rewrite E. change (inject_Z 0) with 0%Q. ring.
    + exfalso. apply Qabs_Qlt_condition in S. lra.
  - destruct (Qlt_le_dec (1 # 2) (Qabs x)) as [B2|B2].
    + (* x is a multiple of 2^-p *)
      apply (inF_intro F Hp1 (- p)).
      * unfold d. apply mult_minus; [|apply mult_int; lia].
        apply (inF_big F Hp1); auto. cbn [prec F]. replace (p + - p - 1) with (-1) by lia. exact B2.
      * unfold exp_ok, F; cbn [emin]. lia.
      * cbn [prec F]. replace (p + - p) with 0 by lia. rewrite p2_0, Qabs_pos; lra.
    + apply (inF_intro F Hp1 (- p)).
      * unfold d. apply mult_minus; [|apply mult_int; lia].
        assert (E : (Qabs x == p2 (-1))%Q) by (change (p2 (-1)) with (1 # 2)%Q; lra).
        destruct (Qlt_le_dec x 0) as [N|N].
        -- apply (mult_comp _ (- p2 (-1))); [rewrite Qabs_neg in E by lra; lra|]. apply mult_opp, mult_p2. lia.
        -- apply (mult_comp _ (p2 (-1))); [rewrite Qabs_pos in E by lra; lra|]. apply mult_p2. lia.
      * unfold exp_ok, F; cbn [emin]. lia.
      * cbn [prec F]. replace (p + - p) with 0 by lia. rewrite p2_0, Qabs_pos; lra.
Qed.

Lemma vx_r_err : (Qabs (vx_r rnd x - d) <= p2 (- p - 1))%Q.
Proof.
  unfold vx_r. fold k. fold d. pose proof d_range. replace (- p - 1) with ((- p) - 1) by lia.
  apply (rnd_half F Hp1 rnd Hr); [unfold exp_ok, F; cbn [emin]; lia|].
  cbn [prec F]. replace (p + - p) with 0 by lia. rewrite p2_0, Qabs_pos; lra.
Qed.

Lemma vx_r_in : inF F (vx_r rnd x).
Proof. apply (rnd_inF F rnd Hr). Qed.

Lemma scale8 : (rnd (vx_r rnd x * inject_Z 8) == vx_r rnd x * inject_Z 8)%Q.
Proof.
  apply (rnd_id F rnd Hr). destruct (inF_elim F Hp1 _ vx_r_in) as (e & M & O & B).
  apply (inF_intro F Hp1 (e + 3)).
  - destruct M as [j Hj]. exists j. rewrite Hj, p2_plus. change (p2 3) with (inject_Z 8). ring.
  - unfold exp_ok, F in *; cbn [emin] in *. lia.
  - rewrite Qabs_Qmult. replace (prec F + (e + 3)) with (prec F + e + 3) by lia. rewrite p2_plus.
    change (p2 3) with 8%Q. change (Qabs (inject_Z 8)) with 8%Q. lra.
Qed.

Lemma r_hi_eq : r_hi rnd x = qrne (vx_r rnd x * inject_Z 8).
Proof. unfold r_hi, index_size. change (2 ^ 3) with 8. apply qrne_comp. apply scale8. Qed.

Lemma r_hi_range : 0 <= r_hi rnd x <= 8.
Proof.
  rewrite r_hi_eq. pose proof vx_r_range as [A B]. split.
  - apply qrne_bounds_int_l. change (inject_Z 0) with 0%Q. change (inject_Z 8) with 8%Q. lra.
  - apply qrne_bounds_int. change (inject_Z 8) with 8%Q. lra.
Qed.

Lemma eighth_in : forall i, 0 <= i <= 8 -> inF F (inject_Z i * p2 (- index_size)).
Proof.
  intros i H. exists i, (- index_size). split; [reflexivity|]. split.
  - cbn [prec F]. assert (2 ^ 4 <= 2 ^ p) by (apply Z.pow_le_mono_r; lia). change (2 ^ 4) with 16 in *. lia.
  - unfold exp_ok, F, index_size; cbn [emin]. lia.
Qed.

(* the low part is exact and small *)
Lemma r_lo_exact : (r_lo rnd x == vx_r rnd x - inject_Z (r_hi rnd x) * (1 # 8))%Q /\ (Qabs (r_lo rnd x) <= 1 # 16)%Q.
Proof.
  pose proof r_hi_range as HR. pose proof vx_r_range as [A B].
  pose proof (qrne_half (vx_r rnd x * inject_Z 8)) as N. rewrite <- r_hi_eq in N. change (inject_Z 8) with 8%Q in N.
  apply Qabs_Qle_condition in N.
  assert (E8 : (p2 (- index_size) == 1 # 8)%Q) by reflexivity.
  assert (E : (r_lo rnd x == vx_r rnd x - inject_Z (r_hi rnd x) * (1 # 8))%Q).
  { unfold r_lo.
    assert (E1 : (rnd (inject_Z (r_hi rnd x) * p2 (- index_size)) == inject_Z (r_hi rnd x) * (1 # 8))%Q).
    { rewrite (rnd_id F rnd Hr) by (apply eighth_in; exact HR). rewrite E8. reflexivity. }
    rewrite (rnd_comp F rnd Hr _ (vx_r rnd x - inject_Z (r_hi rnd x) * (1 # 8))) by (rewrite E1; reflexivity).
    apply (rnd_id F rnd Hr).
    destruct (Z.eq_dec (r_hi rnd x) 0) as [Z0|Z0].
    - apply (inF_comp F (vx_r rnd x)); [rewrite Z0; change (inject_Z 0) with 0%Q; ring|]. apply vx_r_in.
    - assert (L : (1 <= inject_Z (r_hi rnd x))%Q) by (change 1%Q with (inject_Z 1); rewrite <- Zle_Qle; lia).
      apply (sterbenz F Hp1); [apply vx_r_in| |lra|lra].
      apply (inF_comp F (inject_Z (r_hi rnd x) * p2 (- index_size))); [rewrite E8; reflexivity|]. apply eighth_in; exact HR. }
  split; [exact E|]. rewrite E. apply Qabs_Qle_condition. lra.
Qed.

Lemma clamp_id : clamp (r_hi rnd x) = r_hi rnd x.
Proof. pose proof r_hi_range. unfold clamp, index_size. change (2 ^ 3 + 1) with 9. lia. Qed.

End Red.

(* a finite datum of value q *)
Definition fin (v : fpv) (q : Q) : Prop := exists q', fval v = Some q' /\ (q' == q)%Q.

Section Val.
Variable G : fpfmt.
Hypothesis Hok : fmt_ok G.
Hypothesis Hso : sollya_ok G.
Hypothesis Hf : 11 <= fsz G.
Hypothesis Hw : fsz G + 5 <= - emin_normal G.
Let F := fmt_of G.
Let rnd := rne F.
Let p := fsz G + 1.
Let Hp1 : 1 <= prec F. Proof. unfold F, fmt_of; cbn [prec]. rewrite Hso. lia. Qed.
Let Hr : nearest_in F rnd. Proof. apply rne_nearest; exact Hp1. Qed.
Let Hemax : emax G = 1 - emin_normal G. Proof. apply emax_emin; auto. Qed.

Lemma fin_comp : forall v a b, (a == b)%Q -> fin v a -> fin v b.
Proof. intros v a b E (q & A & B). exists q. split; auto. rewrite B. exact E. Qed.

Lemma num_fin : forall q, fin (num q) q.
Proof.
  intros q. unfold num. destruct (Qeq_bool q 0) eqn:E; [exists 0%Q|exists q]; split; try reflexivity.
  apply Qeq_bool_iff in E. symmetry. exact E.
Qed.

Lemma datum_fin : forall v neg, (Qabs (rnd v) < p2 (emax G + 1))%Q -> fin (datum (sollya_round G v) neg) (rnd v).
Proof.
  intros v neg B. destruct (sollya_round_cases G v) as [(r & S & R & _)|[_ C]]; [|exfalso; fold F rnd in C; lra].
  rewrite S. unfold datum. destruct (Qeq_bool r 0) eqn:E.
  - apply Qeq_bool_iff in E. exists 0%Q. split; [destruct neg; reflexivity|]. rewrite <- E. exact R.
  - exists r. split; [reflexivity|]. exact R.
Qed.

Lemma rnd0 : forall a, (a == 0)%Q -> (rnd a == 0)%Q.
Proof. intros a A. rewrite (rnd_comp F rnd Hr a 0 A). apply (rnd_id F rnd Hr). apply inF_0. exact Hp1. Qed.

Lemma f_mul_fin : forall a b x y, fin a x -> fin b y -> (Qabs (rnd (x * y)) < p2 (emax G + 1))%Q ->
  fin (f_mul G a b) (rnd (x * y)).
Proof.
  intros a b x y (qa & A & EA) (qb & B & EB) H.
  assert (Z : (qa == 0 \/ qb == 0)%Q -> fin (f_mul G a b) 0 -> fin (f_mul G a b) (rnd (x * y))).
  { intros D. apply fin_comp. symmetry. apply rnd0. destruct D as [D|D]; rewrite D in *; rewrite <- ?EA, <- ?EB; ring. }
  destruct a as [a| | | | | |]; cbn [fval] in A; inversion A; clear A; subst;
  destruct b as [b| | | | | |]; cbn [fval] in B; inversion B; clear B; subst.
  - unfold f_mul. apply (fin_comp _ (rnd (qa * qb))).
    + apply (rnd_comp F rnd Hr). rewrite EA, EB. reflexivity.
    + apply datum_fin. rewrite (rnd_comp F rnd Hr _ (x * y)) by (rewrite EA, EB; reflexivity). exact H.
  - apply Z; [right; reflexivity|]. exists 0%Q. split; [|reflexivity]. unfold f_mul. destruct (xorb _ _); reflexivity.
  - apply Z; [right; reflexivity|]. exists 0%Q. split; [|reflexivity]. unfold f_mul. destruct (xorb _ _); reflexivity.
  - apply Z; [left; reflexivity|]. exists 0%Q. split; [|reflexivity]. unfold f_mul. destruct (xorb _ _); reflexivity.
  - apply Z; [left; reflexivity|]. exists 0%Q. split; reflexivity.
  - apply Z; [left; reflexivity|]. exists 0%Q. split; reflexivity.
  - apply Z; [left; reflexivity|]. exists 0%Q. split; [|reflexivity]. unfold f_mul. destruct (xorb _ _); reflexivity.
  - apply Z; [left; reflexivity|]. exists 0%Q. split; reflexivity.
  - apply Z; [left; reflexivity|]. exists 0%Q. split; reflexivity.
Qed.

Lemma f_add_fin : forall a b x y, fin a x -> fin b y -> inF F x -> inF F y ->
  (Qabs (rnd (x + y)) < p2 (emax G + 1))%Q -> fin (f_add G a b) (rnd (x + y)).
Proof.
  intros a b x y (qa & A & EA) (qb & B & EB) Ix Iy H.
  assert (ZL : (qa == 0)%Q -> (rnd (x + y) == y)%Q).
  { intros Z. rewrite (rnd_comp F rnd Hr _ y); [apply (rnd_id F rnd Hr); auto|]. rewrite <- EA, Z. ring. }
  assert (ZR : (qb == 0)%Q -> (rnd (x + y) == x)%Q).
  { intros Z. rewrite (rnd_comp F rnd Hr _ x); [apply (rnd_id F rnd Hr); auto|]. rewrite <- EB, Z. ring. }
  assert (Z0 : forall v, fval v = Some 0%Q -> (qa == 0)%Q -> (qb == 0)%Q -> fin v (rnd (x + y))).
  { intros v V Z1 Z2. exists 0%Q. split; auto. rewrite (ZL Z1), <- EB, Z2. reflexivity. }
  destruct a as [a| | | | | |]; cbn [fval] in A; inversion A; clear A; subst;
  destruct b as [b| | | | | |]; cbn [fval] in B; inversion B; clear B; subst;
  try (apply Z0; reflexivity).
  - unfold f_add. apply (fin_comp _ (rnd (qa + qb))).
    + apply (rnd_comp F rnd Hr). rewrite EA, EB. reflexivity.
    + apply datum_fin. rewrite (rnd_comp F rnd Hr _ (x + y)) by (rewrite EA, EB; reflexivity). exact H.
  - exists qa. split; [reflexivity|]. rewrite ZR by reflexivity. exact EA.
  - exists qa. split; [reflexivity|]. rewrite ZR by reflexivity. exact EA.
  - exists qb. split; [reflexivity|]. rewrite ZL by reflexivity. exact EB.
  - exists qb. split; [reflexivity|]. rewrite ZL by reflexivity. exact EB.
Qed.

Lemma exp_ins_fin : forall k, emin_normal G <= k <= emax G -> fin (exp_ins G k) (p2 k).
Proof. intros k H. destruct (exp_ins_val G Hok ltac:(lia) k H) as (q & E & V). rewrite E. exists q. split; auto. Qed.

Let em := emin_normal G - fsz G.
Lemma EF : F = mkF p (Some em).
Proof. unfold F, fmt_of, p, em. rewrite Hso. f_equal. f_equal. lia. Qed.

Lemma dy_in : forall a j, em <= j -> Z.abs a <= 2 ^ 11 -> inF F (inject_Z a * p2 j).
Proof.
  intros a j Hj Ha. rewrite EF. exists a, j. split; [reflexivity|]. cbn [prec]. split.
  - assert (2 ^ 11 <= 2 ^ p) by (apply Z.pow_le_mono_r; unfold p; lia). lia.
  - unfold exp_ok; cbn [emin]. lia.
Qed.

Section Hi.
Variables (hi pl : Q).
Hypothesis Ih : inF F hi.
Hypothesis Bh : (1 <= hi <= 2)%Q.
Hypothesis Bp : (Qabs pl <= 3 # 64)%Q.

Lemma hi_scaled : forall k, emin_normal G <= k -> inF F (hi * p2 k).
Proof.
  intros k Hk. pose proof (p2_pos k) as Pk.
  assert (M : mult (1 - p) hi).
  { destruct (Qlt_le_dec 1 hi) as [C|C].
    - apply (inF_big F Hp1); auto. rewrite EF; cbn [prec]. replace (p + (1 - p) - 1) with 0 by lia. rewrite p2_0, Qabs_pos by lra. exact C.
    - apply (mult_comp _ (p2 0)); [rewrite p2_0; lra|]. apply mult_p2. unfold p. lia. }
  apply (inF_intro F Hp1 (k + (1 - p))).
  - destruct M as [j Hj]. exists j. rewrite Hj, p2_plus. ring.
  - rewrite EF. unfold exp_ok; cbn [emin]. unfold p, em. lia.
  - rewrite Qabs_pos by nra. rewrite EF; cbn [prec]. replace (p + (k + (1 - p))) with (k + 1) by lia.
    rewrite p2_plus. change (p2 1) with 2%Q. nra.
Qed.

Lemma prod_small : forall h k, em + 5 <= k -> (0 <= h <= 2 * p2 k)%Q -> (Qabs (rnd (h * pl)) <= inject_Z 3 * p2 (k - 5))%Q.
Proof.
  intros h k Hk [H0 H2]. pose proof (p2_pos k) as Pk. pose proof (p2_pos (k - 5)) as P5.
  apply (rnd_abs_le_F F Hp1 rnd Hr); [apply dy_in; [lia|cbn; lia]|].
  rewrite Qabs_Qmult, (Qabs_pos h) by auto.
  assert (E : (p2 k == p2 (k - 5) * 32)%Q) by (change 32%Q with (p2 5); rewrite <- p2_plus; replace (k - 5 + 5) with k by lia; reflexivity).
  apply Qle_trans with (2 * p2 k * (3 # 64))%Q; [apply Qmult_le_compat_nonneg; split; auto; apply Qabs_nonneg|].
  change (inject_Z 3) with 3%Q. lra.
Qed.

Lemma std_value : forall k, emin_normal G <= k <= emax G -> (k < emax G \/ (hi <= 15 # 8)%Q) ->
  fin (exp2_std G (num hi) (num pl) k) (rnd (rnd (hi * p2 k * pl) + hi * p2 k)).
Proof.
  intros k Hk Hov. pose proof (p2_pos k) as Pk. pose proof (hi_scaled k (proj1 Hk)) as IH.
  assert (E5 : (p2 k == p2 (k - 5) * 32)%Q) by (change 32%Q with (p2 5); rewrite <- p2_plus; replace (k - 5 + 5) with k by lia; reflexivity).
  pose proof (p2_pos (k - 5)) as P5.
  assert (O1 : (p2 k * 2 <= p2 (emax G + 1))%Q) by (change 2%Q with (p2 1); rewrite <- p2_plus; apply p2_le; lia).
  assert (O2 : k < emax G -> (p2 k * 4 <= p2 (emax G + 1))%Q) by (intros; change 4%Q with (p2 2); rewrite <- p2_plus; apply p2_le; lia).
  assert (HB : (0 <= hi * p2 k <= 2 * p2 k)%Q) by nra.
  pose proof (prod_small (hi * p2 k) k ltac:(unfold em; lia) HB) as PS.
  set (h := (hi * p2 k)%Q) in *.
  assert (F1 : fin (f_mul G (num hi) (exp_ins G k)) h).
  { apply (fin_comp _ (rnd (hi * p2 k))); [apply (rnd_id F rnd Hr); exact IH|].
    apply f_mul_fin; [apply num_fin|apply exp_ins_fin; auto|].
    assert (RE : (rnd (hi * p2 k) == h)%Q) by (apply (rnd_id F rnd Hr); exact IH).
    fold F rnd. rewrite RE, Qabs_pos by lra.
    destruct Hov as [C|C]; [specialize (O2 C); lra|]. unfold h. nra. }
  assert (F2 : fin (f_mul G (f_mul G (num hi) (exp_ins G k)) (num pl)) (rnd (h * pl))).
  { apply f_mul_fin; [exact F1|apply num_fin|]. fold F rnd. eapply Qle_lt_trans; [exact PS|]. change (inject_Z 3) with 3%Q. lra. }
  unfold exp2_std. apply f_add_fin; auto; [apply (rnd_inF F rnd Hr)|]. fold F rnd.
  apply Qabs_Qle_condition in PS. change (inject_Z 3) with 3%Q in PS.
  destruct Hov as [C|C].
  - specialize (O2 C). apply Qle_lt_trans with (inject_Z 67 * p2 (k - 5))%Q.
    + apply (rnd_abs_le_F F Hp1 rnd Hr); [apply dy_in; [unfold em; lia|cbn; lia]|]. change (inject_Z 67) with 67%Q. apply Qabs_Qle_condition. lra.
    + change (inject_Z 67) with 67%Q. lra.
  - apply Qle_lt_trans with (inject_Z 63 * p2 (k - 5))%Q.
    + apply (rnd_abs_le_F F Hp1 rnd Hr); [apply dy_in; [unfold em; lia|cbn; lia]|]. change (inject_Z 63) with 63%Q.
      assert (h <= (15 # 8) * p2 k)%Q by (unfold h; nra). apply Qabs_Qle_condition. lra.
    + change (inject_Z 63) with 63%Q. lra.
Qed.

Lemma sub_value : forall k, em <= k < emin_normal G ->
  fin (exp2_sub G (num hi) (num pl) k) (rnd (rnd (rnd (hi * p2 k) * pl) + rnd (hi * p2 k))).
Proof.
  intros k Hk. pose proof (p2_pos k) as Pk. pose proof (p2_pos (emax G + 1)) as PM.
  unfold exp2_sub. replace (- (emin_normal G - k)) with (k - emin_normal G) by lia.
  set (off := k - emin_normal G).
  assert (IO : inF F (hi * p2 off)) by (apply hi_scaled; unfold off; lia).
  assert (B1 : (Qabs (rnd (hi * p2 k)) <= inject_Z 1 * p2 (k + 1))%Q).
  { apply (rnd_abs_le_F F Hp1 rnd Hr); [apply dy_in; [lia|cbn; lia]|]. rewrite p2_plus. change (p2 1) with 2%Q. change (inject_Z 1) with 1%Q.
    rewrite Qabs_pos; nra. }
  change (inject_Z 1) with 1%Q in B1.
  assert (F1 : fin (f_mul G (num hi) (exp_ins G off)) (hi * p2 off)).
  { apply (fin_comp _ (rnd (hi * p2 off))); [apply (rnd_id F rnd Hr); exact IO|].
    apply f_mul_fin; [apply num_fin|apply exp_ins_fin; unfold off; lia|].
    assert (RE : (rnd (hi * p2 off) == hi * p2 off)%Q) by (apply (rnd_id F rnd Hr); exact IO).
    fold F rnd. pose proof (p2_pos off). rewrite RE, Qabs_pos by nra. apply Qle_lt_trans with (p2 (off + 1))%Q.
    - rewrite p2_plus. change (p2 1) with 2%Q. nra.
    - apply p2_lt. unfold off. lia. }
  set (h := rnd (hi * p2 k)) in *.
  assert (F2 : fin (f_mul G (f_mul G (num hi) (exp_ins G off)) (exp_ins G (emin_normal G))) h).
  { assert (EE : (hi * p2 off * p2 (emin_normal G) == hi * p2 k)%Q).
    { rewrite <- Qmult_assoc, <- p2_plus. unfold off. replace (k - emin_normal G + emin_normal G) with k by lia. reflexivity. }
    apply (fin_comp _ (rnd (hi * p2 off * p2 (emin_normal G)))); [apply (rnd_comp F rnd Hr); exact EE|].
    apply f_mul_fin; [exact F1|apply exp_ins_fin; lia|]. fold F rnd. rewrite (rnd_comp F rnd Hr _ _ EE). fold h.
    eapply Qle_lt_trans; [exact B1|]. rewrite Qmult_1_l. apply p2_lt. lia. }
  set (H := f_mul G (f_mul G (num hi) (exp_ins G off)) (exp_ins G (emin_normal G))) in *.
  assert (B2 : (Qabs (rnd (h * pl)) <= inject_Z 1 * p2 (k + 1))%Q).
  { apply (rnd_abs_le_F F Hp1 rnd Hr); [apply dy_in; [lia|cbn; lia]|]. rewrite Qabs_Qmult. change (inject_Z 1) with 1%Q.
    apply Qle_trans with (1 * p2 (k + 1) * 1)%Q; [|lra]. apply Qmult_le_compat_nonneg; split; try apply Qabs_nonneg; auto. lra. }
  change (inject_Z 1) with 1%Q in B2.
  assert (F3 : fin (f_mul G H (num pl)) (rnd (h * pl))).
  { apply f_mul_fin; [exact F2|apply num_fin|]. fold F rnd. eapply Qle_lt_trans; [exact B2|]. rewrite Qmult_1_l. apply p2_lt. lia. }
  apply f_add_fin; auto; try apply (rnd_inF F rnd Hr). fold F rnd.
  apply Qle_lt_trans with (inject_Z 1 * p2 (k + 2))%Q.
  - apply (rnd_abs_le_F F Hp1 rnd Hr); [apply dy_in; [lia|cbn; lia]|].
    replace (k + 2) with (k + 1 + 1) by lia. rewrite (p2_plus (k + 1) 1). change (p2 1) with 2%Q. change (inject_Z 1) with 1%Q.
    apply Qabs_Qle_condition in B1. apply Qabs_Qle_condition in B2. apply Qabs_Qle_condition. lra.
  - change (inject_Z 1) with 1%Q. rewrite Qmult_1_l. apply p2_lt. lia.
Qed.
End Hi.
End Val.
