(* Properties of the exponential (C98, C99, C100). *)
From Coq Require Import ZArith QArith Qabs Qround Qpower Bool Lia Reals Qreals Lra.
From Verif Require Import QUtil FpFormatModel FpFormatSpec FpFormatProofs RoundSpec RoundProofs RoundRne RealLn2 RealUtil PowModel.
From Verif Require Import ExpModel ExpSpec ExpReduce ExpRecon ExpProofs.
Open Scope Z_scope.

(* ---- C98: the argument reduction ---- *)

(* the two operations declared exact are exact, and the reduced argument is close to
   x - k log 2 *)
Theorem exp_reduction : forall G c x, exp_fmt_ok G c -> exp_cst_ok G c -> inF (fmt_of G) x ->
  (IZR (uf_bound c) <= Q2R x <= IZR (ov_bound c))%R ->
  let rnd := rne (fmt_of G) in
  let k := red_k rnd c x in
  (exact_pre_mul rnd c k == inject_Z k * log2_hi c)%Q
  /\ (exact_hi_part rnd c x == x - inject_Z k * log2_hi c)%Q
  /\ (Rabs (Q2R (red_r rnd c x) - (Q2R x - IZR k * ln 2)) <= 17 / 64 * Q2R (p2 (- fsz G - 1)))%R
  /\ (Rabs (Q2R (red_r rnd c x)) <= 0.347)%R.
Proof.
  intros G c x Hf Hc Hx Hr rnd k.
  destruct (reduction G c Hf Hc x Hx Hr) as (A & B & C & D).
  split; [exact A|]. split; [exact B|]. split; [|exact D].
  eapply Rle_trans; [exact C|]. replace (- (fsz G + 1)) with (- fsz G - 1) by lia. lra.
Qed.

(* the constants of binary32 and binary64 *)
Definition cst32 : exp_cst :=
  mkcst 89 (-104) (inject_Z 12102203 * p2 (-23)) (inject_Z 5678 * p2 (-13)) (inject_Z 8781300 * p2 (-38)).
Definition cst64 : exp_cst :=
  mkcst 710 (-745) (inject_Z 6497320848556798 * p2 (-52)) (inject_Z 381061692393 * p2 (-39))
        (inject_Z (-6829247562655284) * p2 (-95)).

(* nearest to a real enclosed by two rationals *)
Lemma nearestR_encl : forall F m e L U x, 1 <= prec F -> exp_ok F e ->
  2 ^ (prec F - 1) < Z.abs m < 2 ^ prec F -> (Q2R L <= x <= Q2R U)%R ->
  (inject_Z m * p2 e - L <= p2 (e - 1))%Q -> (U - inject_Z m * p2 e <= p2 (e - 1))%Q ->
  nearestR F (inject_Z m * p2 e) x.
Proof.
  intros F m e L U x Hp Ho Hm Hx A B. apply nearestR_intro; auto.
  apply Qle_Rle in A, B. rewrite Q2R_minus, Q2R_mult, Q2R_Z in A, B. apply Rabs_le. lra.
Qed.

Lemma inv_ln2 : (Q2R (/ ln2_hi) <= / ln 2 <= Q2R (/ ln2_lo))%R.
Proof.
  destruct ln2_bounds as [A B]. destruct ln2_num_bounds as [C D].
  assert (P : (0 < Q2R ln2_lo)%R) by (rewrite <- Q2R_0; apply Qlt_Rlt; reflexivity).
  rewrite !Q2R_inv by (vm_compute; discriminate).
  split; apply Rinv_le_contravar; lra.
Qed.

Lemma ln2_rest : forall q, (Q2R (ln2_lo - q) <= ln 2 - Q2R q <= Q2R (ln2_hi - q))%R.
Proof. intros q. rewrite !Q2R_minus. destruct ln2_bounds. lra. Qed.

Theorem cst32_ok : exp_cst_ok ML_Binary32 cst32 /\ exp_fmt_ok ML_Binary32 cst32.
Proof.
  split.
  - destruct ln2_num_bounds as [A B]. pose proof ln2_bounds as L.
    split; [|split; [|split; [|split]]].
    + change (ov_bound cst32) with 89. change (emax ML_Binary32 + 1) with 128. lra.
    + change (uf_bound cst32) with (-104). change (emin_subnormal ML_Binary32) with (-149). lra.
    + apply (nearestR_encl _ _ _ (/ ln2_hi) (/ ln2_lo)); try (vm_compute; discriminate); try (split; reflexivity).
      apply inv_ln2.
    + apply (nearestR_encl _ _ _ ln2_lo ln2_hi); try (vm_compute; discriminate); try (split; reflexivity); try exact I. lra.
    + apply (nearestR_encl _ _ _ (ln2_lo - log2_hi cst32) (ln2_hi - log2_hi cst32)); try (vm_compute; discriminate); try (split; reflexivity).
      apply ln2_rest.
  - repeat split; vm_compute; discriminate.
Qed.

Theorem cst64_ok : exp_cst_ok ML_Binary64 cst64 /\ exp_fmt_ok ML_Binary64 cst64.
Proof.
  split.
  - destruct ln2_num_bounds as [A B]. pose proof ln2_bounds as L.
    split; [|split; [|split; [|split]]].
    + change (ov_bound cst64) with 710. change (emax ML_Binary64 + 1) with 1024. lra.
    + change (uf_bound cst64) with (-745). change (emin_subnormal ML_Binary64) with (-1074). lra.
    + apply (nearestR_encl _ _ _ (/ ln2_hi) (/ ln2_lo)); try (vm_compute; discriminate); try (split; reflexivity).
      apply inv_ln2.
    + apply (nearestR_encl _ _ _ ln2_lo ln2_hi); try (vm_compute; discriminate); try (split; reflexivity); try exact I. lra.
    + apply (nearestR_encl _ _ _ (ln2_lo - log2_hi cst64) (ln2_hi - log2_hi cst64)); try (vm_compute; discriminate); try (split; reflexivity).
      apply ln2_rest.
  - repeat split; vm_compute; discriminate.
Qed.

(* 50 = 72 log 2 + 0.09...: the hypotheses hold and the reduction is the expected one *)
Example exp_reduction_case : inF (fmt_of ML_Binary32) (inject_Z 50) /\
  red_k (rne (fmt_of ML_Binary32)) cst32 (inject_Z 50) = 72 /\
  (IZR (uf_bound cst32) <= Q2R (inject_Z 50) <= IZR (ov_bound cst32))%R.
Proof.
  split; [|split].
  - exists 50, 0. split; [vm_compute; reflexivity|]. split; vm_compute; discriminate.
  - vm_compute. reflexivity.
  - rewrite Q2R_Z. change (uf_bound cst32) with (-104). change (ov_bound cst32) with 89. lra.
Qed.

(* The interval on which the polynomial is found is [-log(2)/2, log(2)/2] (ml_exp.py:200);
   the reduced argument leaves it: k is computed with a rounded product.  *)
Theorem exp_reduced_interval_refuted : exists x, inF (fmt_of ML_Binary32) x /\
  (IZR (uf_bound cst32) <= Q2R x <= IZR (ov_bound cst32))%R /\
  (ln 2 / 2 + 6 / 1000000 < Rabs (Q2R (red_r (rne (fmt_of ML_Binary32)) cst32 x)))%R.
Proof.
  exists (inject_Z (-12219620) * p2 (-17))%Q. split; [|split].
  - exists (-12219620), (-17). split; [reflexivity|]. split; vm_compute; discriminate.
  - rewrite Q2R_mult, Q2R_Z. change (p2 (-17)) with (1 # 131072)%Q. unfold Q2R. cbn [Qnum Qden].
    change (uf_bound cst32) with (-104). change (ov_bound cst32) with 89. lra.
  - rewrite <- Q2R_abs. destruct ln2_bounds as [_ B].
    assert (C : (ln2_hi * (1 # 2) + (6 # 1000000) < Qabs (red_r (rne (fmt_of ML_Binary32)) cst32 (inject_Z (-12219620) * p2 (-17))))%Q)
      by (vm_compute; reflexivity).
    apply Qlt_Rlt in C. eapply Rle_lt_trans; [|exact C].
    rewrite Q2R_plus, Q2R_mult. replace (Q2R (1 # 2)) with (1 / 2)%R by (unfold Q2R; cbn [Qnum Qden]; lra).
    replace (Q2R (6 # 1000000)) with (6 / 1000000)%R by (unfold Q2R; cbn [Qnum Qden]; lra). lra.
Qed.

(* The interval of the exact high part given to Gappa is the same one (ml_exp.py:206, with
   a TODO): the high part is outside of it by more than 0.004. *)
Theorem exp_hi_interval_refuted : exists x, inF (fmt_of ML_Binary32) x /\
  (IZR (uf_bound cst32) <= Q2R x <= IZR (ov_bound cst32))%R /\
  (ln 2 / 2 + 4 / 1000 < Rabs (Q2R (exact_hi_part (rne (fmt_of ML_Binary32)) cst32 x)))%R.
Proof.
  exists (inject_Z (-13582401) * p2 (-17))%Q. split; [|split].
  - exists (-13582401), (-17). split; [reflexivity|]. split; vm_compute; discriminate.
  - rewrite Q2R_mult, Q2R_Z. change (p2 (-17)) with (1 # 131072)%Q. unfold Q2R. cbn [Qnum Qden].
    change (uf_bound cst32) with (-104). change (ov_bound cst32) with 89. lra.
  - rewrite <- Q2R_abs. destruct ln2_bounds as [_ B].
    assert (C : (ln2_hi * (1 # 2) + (4 # 1000) < Qabs (exact_hi_part (rne (fmt_of ML_Binary32)) cst32 (inject_Z (-13582401) * p2 (-17))))%Q)
      by (vm_compute; reflexivity).
    apply Qlt_Rlt in C. eapply Rle_lt_trans; [|exact C].
    rewrite Q2R_plus, Q2R_mult. replace (Q2R (1 # 2)) with (1 / 2)%R by (unfold Q2R; cbn [Qnum Qden]; lra).
    replace (Q2R (4 # 1000)) with (4 / 1000)%R by (unfold Q2R; cbn [Qnum Qden]; lra). lra.
Qed.

(* ---- C99: the three ways of multiplying by the power of two ---- *)

(* every path rounds 2^k poly once: late overflow and late underflow lose nothing *)
Theorem exp_reconstruction : forall G, fmt_ok G -> sollya_ok G -> 3 <= fsz G -> 2 * fsz G <= - emin_normal G ->
  forall k poly, inF (fmt_of G) poly -> (1 # 2 <= poly < 2)%Q ->
  emin_subnormal G - 2 <= k <= emax G + 2 ->
  exp_result G k poly = datum (sollya_round G (p2 k * poly)) false.
Proof. intros G Ho Hs Hf Hw k poly I [L U] Hk. apply exp_result_round; auto; exact L. Qed.

(* the smallest subnormal number of binary32, through the late underflow path *)
Example exp_reconstruction_case :
  exp_result ML_Binary32 (-149) (5 # 4) = datum (Some (p2 (-149))) false /\
  exp_result ML_Binary32 128 1 = PInf /\ exp_result ML_Binary32 128 (1 # 2) = datum (Some (p2 127)) false.
Proof. repeat split; vm_compute; reflexivity. Qed.

(* With a narrow exponent the offset 2 fsz is outside of the range of exponents, and
   ExponentInsertion gives a number of the wrong sign. *)
Theorem exp_binary16_refuted : forall k poly, inF (fmt_of ML_Binary16) poly -> (1 # 2 <= poly < 2)%Q ->
  -25 <= k <= -14 -> f_neg (exp_result ML_Binary16 k poly) = true.
Proof.
  intros k poly I [L U] Hk. unfold exp_result.
  change (emax ML_Binary16) with 15. change (emin_normal ML_Binary16) with (-14).
  change (underflow_exp_offset ML_Binary16) with 20.
  destruct (Z.ltb_spec 15 k); [lia|]. destruct (Z.leb_spec k (-14)); [|lia]. cbn [orb negb].
  replace (exp_ins ML_Binary16 (Z.opp 20)) with (Num (-4194304 # 1024)) by (vm_compute; reflexivity).
  assert (Ho : fmt_ok ML_Binary16) by (repeat split; vm_compute; discriminate).
  assert (Hs : sollya_ok ML_Binary16) by reflexivity.
  assert (Hf : 3 <= fsz ML_Binary16) by (vm_compute; discriminate).
  destruct (exp_ins_val ML_Binary16 Ho Hf (k + 20)) as (q & Eq & Vq).
  { change (emax ML_Binary16) with 15. change (emin_normal ML_Binary16) with (-14). lia. }
  rewrite Eq. pose proof (p2_pos (k + 20)) as P.
  assert (Hq : (0 < q)%Q) by (rewrite Vq; exact P).
  assert (Hp : (0 < poly)%Q) by (eapply Qlt_le_trans; [|exact L]; reflexivity).
  rewrite f_mul_num by auto.
  destruct (round_in ML_Binary16 Hs Hf (q * poly)) as (r & Sr & Vr).
  { apply (inF_comp (fmt_of ML_Binary16) (p2 (k + 20) * poly)%Q); [rewrite Vq; reflexivity|].
    apply scaled_in; auto. change (emin_normal ML_Binary16) with (-14). lia. }
  { rewrite Qabs_pos by (apply Qmult_le_0_compat; apply Qlt_le_weak; auto).
    change (emax ML_Binary16 + 1) with 16. rewrite Vq.
    apply Qlt_le_trans with (p2 (k + 20) * 2)%Q; [apply Qmult_lt_l; auto|].
    change 2%Q with (p2 1). rewrite <- p2_plus. apply p2_le. lia. }
  rewrite Sr. unfold datum at 1.
  assert (Rp : (0 < r)%Q) by (rewrite Vr; apply Qmult_lt_0_compat; auto).
  destruct (Qeq_bool r 0) eqn:E0; [apply Qeq_bool_iff in E0; rewrite E0 in Rp; discriminate|].
  unfold f_mul, f_neg at 2 3. assert (R1 : Qle_bool 0 r = true) by (apply Qle_bool_iff; apply Qlt_le_weak; auto).
  rewrite R1. change (xorb (negb true) (negb (Qle_bool 0 (-4194304 # 1024)))) with true.
  assert (Hn : (r * (-4194304 # 1024) <= 0)%Q).
  { setoid_replace (r * (-4194304 # 1024))%Q with (- (r * (4194304 # 1024)))%Q by ring.
    setoid_replace 0%Q with (- 0)%Q by reflexivity. apply Qopp_le_compat.
    apply Qmult_le_0_compat; [apply Qlt_le_weak; auto|discriminate]. }
  destruct (sollya_round_cases ML_Binary16 (r * (-4194304 # 1024))) as [(s & Ss & Vs & _)|[Sn _]]; [rewrite Ss|rewrite Sn; reflexivity].
  unfold datum. destruct (Qeq_bool s 0) eqn:Z0; [reflexivity|]. unfold f_neg.
  assert (Hs0 : (s <= 0)%Q).
  { rewrite Vs. assert (HN : nearest_in (fmt_of ML_Binary16) (rne (fmt_of ML_Binary16))) by (apply rne_nearest; vm_compute; discriminate).
    apply (rnd_le_F _ _ HN); [|exact Hn]. exists 0, 0. split; [reflexivity|]. split; vm_compute; discriminate. }
  destruct (Qle_bool 0 s) eqn:L0; [|reflexivity]. apply Qle_bool_iff in L0.
  apply Qeq_bool_neq in Z0. exfalso. apply Z0. apply Qle_antisym; auto.
Qed.

(* exp(-12) in binary16 comes out negative: 2^-17 1.06 becomes about -2^16 *)
Example exp_binary16_case : exists q, exp_result ML_Binary16 (-17) (17 # 16) = Num q /\ (q == - (34816 # 1))%Q.
Proof. eexists. split; [vm_compute; reflexivity|vm_compute; reflexivity]. Qed.

(* ---- C100: the whole function ---- *)

Definition finite_datum (G : fpfmt) (v : fpv) (x : Q) : Prop := fval v = Some x /\ inF (fmt_of G) x.

Lemma scheme_finite : forall G c sub v x, fval v = Some x -> exp_scheme G c sub v = exp_std G c sub x.
Proof. intros G c sub [q| | | | | |] x H; inversion H; reflexivity. Qed.

(* less than one unit in the last place, unless exp(x) is at the upper end of the
   range; the result is finite *)
Theorem exp_accurate : forall G c sub, exp_fmt_ok G c -> exp_cst_ok G c -> sub_ok G sub ->
  forall v x E, finite_datum G v x -> binade (exp (Q2R x)) E ->
  (exp (Q2R x) <= Q2R (p2 (emax G + 1)) * (1 - 4 * Q2R (p2 (- fsz G - 1))))%R ->
  exists q, fval (exp_scheme G c sub v) = Some q /\ (Rabs (Q2R q - exp (Q2R x)) < ulpR G E)%R.
Proof.
  intros G c sub Hf Hc Hs v x E [Hv Hx] HE HO. rewrite (scheme_finite _ _ _ _ _ Hv).
  apply exp_std_accurate; auto. replace (- (fsz G + 1)) with (- fsz G - 1) by lia. exact HO.
Qed.

(* above the range, the result is infinite *)
Theorem exp_overflow : forall G c sub, exp_fmt_ok G c -> exp_cst_ok G c -> sub_ok G sub ->
  forall v x, finite_datum G v x ->
  (Q2R (p2 (emax G + 1)) * (1 + 2 * Q2R (p2 (- fsz G - 1))) <= exp (Q2R x))%R ->
  exp_scheme G c sub v = PInf.
Proof.
  intros G c sub Hf Hc Hs v x [Hv Hx] HO. rewrite (scheme_finite _ _ _ _ _ Hv).
  apply exp_std_overflow; auto. replace (- (fsz G + 1)) with (- fsz G - 1) by lia. exact HO.
Qed.

Theorem exp_special : forall G c sub,
  exp_scheme G c sub QNaN = QNaN /\ exp_scheme G c sub SNaN = QNaN /\
  exp_scheme G c sub PInf = PInf /\ exp_scheme G c sub MInf = PZero.
Proof. intros. repeat split; reflexivity. Qed.

(* A sub-polynomial meeting the hypothesis: enough terms of the Taylor series *)
Fixpoint zfact (n : nat) : Z := match n with O => 1 | S m => Z.of_nat (S m) * zfact m end.
Fixpoint qexpT (n : nat) (t : Q) : Q :=
  match n with
  | O => 0
  | S m => qexpT m t + t ^ Z.of_nat m * / inject_Z (zfact m)
  end%Q.
Definition taylor_sub (n : nat) (r : Q) : Q := (qexpT n r - 1 - r)%Q.

Lemma zfact_fact : forall n, zfact n = Z.of_nat (fact n).
Proof. induction n as [|n IH]; [reflexivity|]. cbn [zfact]. rewrite IH, <- Nat2Z.inj_mul. reflexivity. Qed.

Lemma qexpT_expT : forall n t, Q2R (qexpT n t) = expT n (Q2R t).
Proof.
  induction n as [|n IH]; intros t; cbn [qexpT expT]; [apply Q2R_0|].
  rewrite zfact_fact. assert (N : ~ (inject_Z (Z.of_nat (fact n)) == 0)%Q).
  { intros C. change 0%Q with (inject_Z 0) in C. apply (proj1 (inject_Z_injective _ _)) in C. pose proof (lt_O_fact n). lia. }
  rewrite Q2R_plus, IH, Q2R_mult, Q2R_pow, Q2R_inv, Q2R_Z, <- INR_IZR_INZ by exact N. reflexivity.
Qed.

Lemma taylor_ok : forall G n, (2 * (347 # 1000) ^ Z.of_nat n <= p2 (- fsz G - 6))%Q -> sub_ok G (taylor_sub n).
Proof.
  intros G n H r _ Hr. unfold taylor_sub. rewrite !Q2R_minus, qexpT_expT, Q2R_1. unfold exp_rem2.
  replace (expT n (Q2R r) - 1 - Q2R r - (exp (Q2R r) - 1 - Q2R r))%R with (- (exp (Q2R r) - expT n (Q2R r)))%R by ring.
  rewrite Rabs_Ropp. eapply Rle_trans; [apply exp_taylor; lra|].
  apply Qle_Rle in H. rewrite Q2R_mult, Q2R_pow in H.
  replace (Q2R 2) with 2%R in H by (unfold Q2R; cbn [Qnum Qden]; lra).
  replace (Q2R (347 # 1000)) with 0.347%R in H by (unfold Q2R; cbn [Qnum Qden]; lra).
  eapply Rle_trans; [|exact H]. apply Rmult_le_compat_l; [lra|]. apply pow_incr. split; [apply Rabs_pos|exact Hr].
Qed.

(* binary32 and binary64 exponentials with Taylor polynomials meet all the hypotheses *)
Example exp_accurate_case : sub_ok ML_Binary32 (taylor_sub 20) /\ sub_ok ML_Binary64 (taylor_sub 40).
Proof. split; apply taylor_ok; vm_compute; discriminate. Qed.

Theorem exp_accurate32 : forall v x E, finite_datum ML_Binary32 v x -> binade (exp (Q2R x)) E ->
  (exp (Q2R x) <= IZR (2 ^ 128 - 2 ^ 106))%R ->
  exists q, fval (exp_scheme ML_Binary32 cst32 (taylor_sub 20) v) = Some q /\
    (Rabs (Q2R q - exp (Q2R x)) < ulpR ML_Binary32 E)%R.
Proof.
  intros v x E Hv HE HO.
  apply (exp_accurate ML_Binary32 cst32 (taylor_sub 20) (proj2 cst32_ok) (proj1 cst32_ok) (proj1 exp_accurate_case) v x E Hv HE).
  change (emax ML_Binary32 + 1) with 128. change (- fsz ML_Binary32 - 1) with (-24).
  rewrite p2R_Z by lia. replace (Q2R (p2 (-24))) with (/ 16777216)%R by (change (p2 (-24)) with (1 # 16777216)%Q; unfold Q2R; cbn [Qnum Qden]; lra).
  rewrite minus_IZR in HO. replace (IZR (2 ^ 106)) with (IZR (2 ^ 128) * 4 * / 16777216)%R in HO; [lra|].
  change (2 ^ 128) with (2 ^ 106 * 4194304). rewrite mult_IZR. lra.
Qed.

(* exp(0) = 1 *)
Theorem exp_zero : forall G c sub, exp_fmt_ok G c -> exp_cst_ok G c -> sub_ok G sub -> (sub 0 == 0)%Q ->
  (forall a b, (a == b)%Q -> (sub a == sub b)%Q) ->
  forall v, v = PZero \/ v = MZero -> exists q, exp_scheme G c sub v = Num q /\ (q == 1)%Q.
Proof.
  intros G c sub Hf Hc Hs H0 Hcomp v Hv.
  assert (E : exp_scheme G c sub v = exp_std G c sub 0) by (destruct Hv; subst; reflexivity). rewrite E. clear E v Hv.
  set (F := fmt_of G). set (rnd := rne F).
  assert (Hp : 1 <= prec F).
  { unfold F, fmt_of; cbn [prec]. destruct Hf as (_ & Hso & Hf & _). rewrite Hso. lia. }
  assert (Hr : nearest_in F rnd) by (apply rne_nearest; exact Hp).
  assert (I0 : inF F 0) by (apply inF_0; exact Hp).
  assert (R0 : forall a, (a == 0)%Q -> (rnd a == 0)%Q).
  { intros a A. rewrite (rnd_comp F rnd Hr a 0 A). apply (rnd_id F rnd Hr); auto. }
  assert (I1 : inF F 1).
  { exists 1, 0. split; [reflexivity|]. split; [|destruct Hf as (_ & Hso & Hf & Hw & _); unfold exp_ok, F, fmt_of; cbn [emin]; rewrite Hso; lia].
    change (Z.abs 1) with 1. pose proof (Z.pow_pos_nonneg 2 (prec F)). lia. }
  assert (K : red_k rnd c 0 = 0).
  { unfold red_k. rewrite (qrne_comp _ 0); [reflexivity|]. apply R0. ring. }
  assert (Hx : inF (fmt_of G) 0) by exact I0.
  pose proof Hc as Hc0. destruct Hc0 as [O [V _]].
  destruct ln2_num_bounds as [L1 L2].
  assert (R : (IZR (uf_bound c) <= Q2R 0 <= IZR (ov_bound c))%R).
  { rewrite Q2R_0. destruct Hf as (Ho & Hso & Hf & Hw & _). pose proof (emax_emin G Ho) as EM.
    assert (IZR (emin_subnormal G) <= IZR 0)%R by (apply IZR_le; unfold emin_subnormal; unfold emin_normal in Hw; lia).
    assert (IZR 0 <= IZR (emax G + 1))%R by (apply IZR_le; lia). nra. }
  rewrite (exp_std_round G c sub Hf Hc Hs 0 Hx R). fold F. fold rnd. rewrite K.
  assert (HI : (exact_hi_part rnd c 0 == 0)%Q).
  { unfold exact_hi_part. apply R0. rewrite K. unfold exact_pre_mul. rewrite R0; [reflexivity|]. ring. }
  assert (LO : (exact_lo_part rnd c 0 == 0)%Q).
  { unfold exact_lo_part. apply R0. rewrite K. ring. }
  assert (RR : (red_r rnd c 0 == 0)%Q) by (unfold red_r; apply R0; rewrite HI, LO; reflexivity).
  assert (PP : (exp_poly rnd c sub 0 == 1)%Q).
  { unfold exp_poly.
    assert (Z1 : (rnd (exact_lo_part rnd c 0 + sub (red_r rnd c 0)) == 0)%Q)
      by (apply R0; rewrite LO, (Hcomp _ _ RR), H0; reflexivity).
    assert (Z2 : (rnd (exact_hi_part rnd c 0 + rnd (exact_lo_part rnd c 0 + sub (red_r rnd c 0))) == 0)%Q)
      by (apply R0; rewrite HI, Z1; reflexivity).
    rewrite (rnd_comp F rnd Hr _ 1); [apply (rnd_id F rnd Hr); auto|]. rewrite Z2. reflexivity. }
  destruct Hf as (Ho & Hso & Hf & Hw & _). pose proof (emax_emin G Ho) as EM.
  rewrite (sollya_round_comp G _ 1) by (rewrite PP; reflexivity).
  destruct (round_in G Hso ltac:(lia) 1 I1) as (r & Sr & Vr).
  { change (Qabs 1) with (p2 0). apply p2_lt. lia. }
  rewrite Sr. unfold datum. destruct (Qeq_bool r 0) eqn:E0.
  - apply Qeq_bool_iff in E0. rewrite E0 in Vr. discriminate.
  - exists r. auto.
Qed.

Example exp_zero_case : (taylor_sub 20 0 == 0)%Q /\ (forall a b, (a == b)%Q -> (taylor_sub 20 a == taylor_sub 20 b)%Q).
Proof.
  split; [vm_compute; reflexivity|].
  intros a b E. unfold taylor_sub.
  assert (H : forall n, (qexpT n a == qexpT n b)%Q).
  { induction n as [|n IH]; cbn [qexpT]; [reflexivity|]. rewrite IH, (Qpower_comp a b E _ _ eq_refl). reflexivity. }
  rewrite H, E. reflexivity.
Qed.

(* The early underflow bound is the integer below log(2^emin_subnormal); numbers below it
   are flushed to zero, also those whose exponential rounds to the smallest subnormal
   number (more than half of it). *)
Theorem exp_underflow_refuted : forall G c sub x, exp_cst_ok G c -> exp_fmt_ok G c ->
  (IZR (emin_subnormal G - 1) * ln 2 < Q2R x < IZR (uf_bound c))%R ->
  exp_scheme G c sub (Num x) = PZero /\ (Q2R (p2 (emin_subnormal G)) / 2 < exp (Q2R x))%R.
Proof.
  intros G c sub x Hc Hf [A B]. destruct Hc as (O & V & _). destruct Hf as (Ho & Hso & Hf & Hw & _).
  destruct ln2_num_bounds as [L1 L2]. pose proof (emax_emin G Ho) as EM.
  assert (IZR (emin_subnormal G) <= IZR 0)%R by (apply IZR_le; unfold emin_subnormal; unfold emin_normal in Hw; lia).
  assert (IZR 0 <= IZR (emax G + 1))%R by (apply IZR_le; lia).
  split.
  - rewrite (scheme_finite G c sub (Num x) x eq_refl). unfold exp_std.
    assert (Q1 : Qle_bool x (inject_Z (ov_bound c)) = true) by (apply Qle_bool_iff, Rle_Qle; rewrite Q2R_Z; nra).
    assert (Q2 : Qle_bool (inject_Z (uf_bound c)) x = false).
    { apply Bool.not_true_iff_false. intros C. apply Qle_bool_iff in C. apply Qle_Rle in C. rewrite Q2R_Z in C. lra. }
    rewrite Q1, Q2. reflexivity.
  - replace (Q2R (p2 (emin_subnormal G)) / 2)%R with (Q2R (p2 (emin_subnormal G - 1))).
    + rewrite p2_exp. apply exp_increasing. exact A.
    + replace (emin_subnormal G - 1) with (emin_subnormal G + -1) by lia. rewrite p2R_plus.
      replace (Q2R (p2 (-1))) with (1 / 2)%R by (cbv; lra). lra.
Qed.

(* binary64: -745.0625 is such a number; binary32 has none *)
Example exp_underflow_case :
  inF (fmt_of ML_Binary64) (inject_Z (-11921) * p2 (-4)) /\
  (IZR (emin_subnormal ML_Binary64 - 1) * ln 2 < Q2R (inject_Z (-11921) * p2 (-4)) < IZR (uf_bound cst64))%R /\
  (IZR (uf_bound cst32) < IZR (emin_subnormal ML_Binary32 - 1) * ln 2)%R.
Proof.
  split; [|split].
  - exists (-11921), (-4). split; [reflexivity|]. split; vm_compute; discriminate.
  - rewrite Q2R_mult, Q2R_Z. change (p2 (-4)) with (1 # 16)%Q. unfold Q2R. cbn [Qnum Qden].
    change (uf_bound cst64) with (-745). change (emin_subnormal ML_Binary64 - 1) with (-1075).
    destruct ln2_num_bounds. lra.
  - change (uf_bound cst32) with (-104). change (emin_subnormal ML_Binary32 - 1) with (-150).
    destruct ln2_num_bounds. lra.
Qed.

Print Assumptions exp_reduction.
Print Assumptions exp_reconstruction.
Print Assumptions exp_binary16_refuted.
Print Assumptions exp_reduced_interval_refuted.
Print Assumptions exp_hi_interval_refuted.
Print Assumptions exp_accurate.
Print Assumptions exp_accurate32.
Print Assumptions exp_overflow.
Print Assumptions exp_special.
Print Assumptions exp_zero.
Print Assumptions exp_underflow_refuted.
Print Assumptions cst64_ok.
