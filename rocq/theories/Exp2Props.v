(* Properties of the function 2^x (C101, C102, C103). *)
From Coq Require Import ZArith QArith Qabs Qround Qpower Bool List Lia Reals Qreals Lra.
From Verif Require Import QUtil FpFormatModel FpFormatSpec FpFormatProofs RoundSpec RoundProofs RoundRne RealLn2 RealUtil PowModel.
From Verif Require Import ExpModel ExpSpec ExpReduce ExpRecon ExpProofs ExpProps Exp2Model Exp2Proofs Exp2Accuracy.
Open Scope Z_scope.

(* ---- C101: the reduction and the table index ---- *)

Theorem exp2_reduction : forall G x, exp2_fmt_ok G -> inF (fmt_of G) x ->
  let rnd := rne (fmt_of G) in
  let i := r_hi rnd x in
  0 <= i <= 8 /\ clamp i = i
  /\ (r_lo rnd x == vx_r rnd x - inject_Z i * (1 # 8))%Q /\ (Qabs (r_lo rnd x) <= 1 # 16)%Q
  /\ (Qabs (vx_r rnd x - (x - inject_Z (Qfloor x))) <= p2 (- fsz G - 2))%Q
  /\ ((0 <= x)%Q \/ (x <= - (1 # 2))%Q -> (vx_r rnd x == x - inject_Z (Qfloor x))%Q).
Proof.
  intros G x (Hok & Hso & Hf & Hw) Hx rnd i.
  assert (E : fmt_of G = mkF (fsz G + 1) (Some (emin_normal G - fsz G))) by (apply EF; auto).
  assert (Hr : nearest_in (mkF (fsz G + 1) (Some (emin_normal G - fsz G))) rnd).
  { rewrite <- E. apply rne_nearest. rewrite E. cbn [prec]. lia. }
  rewrite E in Hx.
  assert (Hp : 12 <= fsz G + 1) by lia. assert (He : emin_normal G - fsz G <= - (fsz G + 1) - 4) by lia.
  split; [exact (r_hi_range _ _ rnd Hr Hp He x)|]. split; [exact (clamp_id _ _ rnd Hr Hp He x)|].
  destruct (r_lo_exact _ _ rnd Hr Hp He x) as [A B]. split; [exact A|]. split; [exact B|]. split.
  - replace (- fsz G - 2) with (- (fsz G + 1) - 1) by lia. exact (vx_r_err _ _ rnd Hr Hp He x).
  - exact (vx_r_exact _ _ rnd Hr Hp He x Hx).
Qed.

(* the fraction of a small negative number rounds to 1, the index is then the last one *)
Example exp2_reduction_case : exp2_fmt_ok ML_Binary32 /\
  r_hi (rne (fmt_of ML_Binary32)) (- p2 (-30)) = 8 /\ (vx_r (rne (fmt_of ML_Binary32)) (- p2 (-30)) == 1)%Q /\
  r_hi (rne (fmt_of ML_Binary32)) (11 # 4) = 6.
Proof. repeat split; vm_compute; try discriminate; reflexivity. Qed.

(* The clamp is to the size of the table plus ... one: it does not protect the table. *)
Theorem exp2_clamp_refuted : forall tab i, length tab = 9%nat -> 9 <= i ->
  clamp i = 9 /\ load tab (clamp i) = None.
Proof.
  intros tab i L H. assert (E : clamp i = 9) by (unfold clamp, index_size; change (2 ^ 3 + 1) with 9; lia).
  split; [exact E|]. rewrite E. unfold load. cbn. apply nth_error_None. rewrite L. constructor.
Qed.
(* a NaN whose conversion to an integer is large reads outside of the table *)
Theorem exp2_nan : forall G tab pl ck ci, length tab = 9%nat ->
  (ci <= 8 -> exp2_scheme G tab pl ck ci QNaN = Some QNaN) /\
  (9 <= ci -> exp2_scheme G tab pl ck ci QNaN = None).
Proof.
  intros G tab pl ck ci L. split; intros H.
  - cbn [exp2_scheme]. unfold load, clamp, index_size. change (2 ^ 3 + 1) with 9.
    replace (Z.min ci 9) with ci by lia. destruct (Z.ltb_spec (Z.max ci 0) 0); [lia|].
    destruct (nth_error tab (Z.to_nat (Z.max ci 0))) as [h|] eqn:N.
    + cbn [option_map]. unfold exp2_std. f_equal.
      assert (M : forall a, f_mul G a QNaN = QNaN) by (intros [q| | | | | |]; reflexivity). rewrite M. reflexivity.
    + exfalso. apply nth_error_None in N. rewrite L in N. lia.
  - cbn [exp2_scheme]. rewrite (proj2 (exp2_clamp_refuted tab ci L H)). reflexivity.
Qed.

(* ---- C102: accuracy ---- *)

(* within 1.6 units in the last place; the scheme never reads outside of the table *)
Theorem exp2_accurate : forall G tab pl eta delta, exp2_fmt_ok G -> tab_ok G tab eta -> pl_ok G pl delta ->
  (0 <= eta <= Q2R (p2 (- fsz G - 1)))%R -> (0 <= delta <= Q2R (p2 (- fsz G - 1)) / 8)%R ->
  forall ck ci v x E, finite_datum G v x -> binade (pow2 (Q2R x)) E ->
  (Q2R x < IZR (emax G + 1) - 1 / 16)%R ->
  exists w q, exp2_scheme G tab pl ck ci v = Some w /\ fval w = Some q /\ (Rabs (Q2R q - pow2 (Q2R x)) <= 1.6 * ulpR G E)%R.
Proof.
  intros G tab pl eta delta Hf Ht Hp He Hd ck ci v x E [Hv Hx] HE Hu.
  replace (- fsz G - 1) with (- (fsz G + 1)) in He, Hd by lia.
  assert (S : exp2_scheme G tab pl ck ci v = exp2_num G tab pl x) by (destruct v; inversion Hv; reflexivity).
  rewrite S. pose proof (binade_floor x E HE) as EK. subst E.
  assert (ES : emin_subnormal G <= emin_normal G) by (destruct Hf as (_ & _ & Hf & _); unfold emin_subnormal, emin_normal; lia).
  assert (U0 : (0 < ulpR G (Qfloor x))%R) by apply p2R_pos.
  destruct (Rle_lt_dec (IZR (emin_normal G)) (Q2R x)) as [L|L].
  - destruct (exp2_num_std G tab pl eta delta Hf Ht Hp He Hd x Hx L Hu) as (q & w & A & B & C & _). exists w, q. auto.
  - destruct (Rlt_le_dec (IZR (emin_subnormal G)) (Q2R x)) as [M|M].
    + destruct (exp2_num_sub G tab pl eta delta Hf Ht Hp He Hd x Hx (conj M L)) as (q & w & A & B & C). exists w, q.
      split; [exact A|]. split; [exact B|]. lra.
    + exists PZero, 0%Q. split; [|split; [reflexivity|]].
      * unfold exp2_num. destruct Hf as (Hok & Hso & Hf & Hw). pose proof (emax_emin G Hok) as EM.
        assert (Q1 : Qle_bool (inject_Z (emax G + 1)) x = false).
        { apply Bool.not_true_iff_false. intros C. apply Qle_bool_iff in C. apply Qle_Rle in C. rewrite Q2R_Z in C. lra. }
        assert (Q2 : Qle_bool (inject_Z (emin_normal G)) x = false).
        { apply Bool.not_true_iff_false. intros C. apply Qle_bool_iff in C. apply Qle_Rle in C. rewrite Q2R_Z in C. lra. }
        assert (Q3 : Qle_bool x (inject_Z (emin_subnormal G)) = true) by (apply Qle_bool_iff, Rle_Qle; rewrite Q2R_Z; lra).
        rewrite Q1, Q2, Q3. reflexivity.
      * rewrite Q2R_0. replace (0 - pow2 (Q2R x))%R with (- pow2 (Q2R x))%R by ring. rewrite Rabs_Ropp, Rabs_pos_eq by (left; apply pow2_pos).
        apply pow2_le in M. rewrite pow2_Z in M.
        assert (Q2R (p2 (emin_subnormal G)) <= ulpR G (Qfloor x))%R by (apply p2R_le; unfold emin_subnormal, emin_normal; lia). lra.
Qed.

(* the sharper bound: away from the subnormal range and from (-1/2, 0) *)
Theorem exp2_accurate_std : forall G tab pl eta delta, exp2_fmt_ok G -> tab_ok G tab eta -> pl_ok G pl delta ->
  (0 <= eta <= Q2R (p2 (- fsz G - 1)))%R -> (0 <= delta <= Q2R (p2 (- fsz G - 1)) / 8)%R ->
  forall ck ci v x E, finite_datum G v x -> binade (pow2 (Q2R x)) E -> emin_normal G + 4 <= E ->
  (Q2R x < IZR (emax G + 1) - 1 / 16)%R -> (0 <= x)%Q \/ (x <= - (1 # 2))%Q ->
  exists w q, exp2_scheme G tab pl ck ci v = Some w /\ fval w = Some q /\
    (Rabs (Q2R q - pow2 (Q2R x)) <= (1.046 * eta + 2 * delta) * Q2R (p2 E) + 17 / 32 * ulpR G E)%R.
Proof.
  intros G tab pl eta delta Hf Ht Hp He Hd ck ci v x E [Hv Hx] HE H4 Hu XX.
  replace (- fsz G - 1) with (- (fsz G + 1)) in He, Hd by lia.
  assert (S : exp2_scheme G tab pl ck ci v = exp2_num G tab pl x) by (destruct v; inversion Hv; reflexivity).
  rewrite S. pose proof (binade_floor x E HE) as EK. subst E.
  assert (L : (IZR (emin_normal G) <= Q2R x)%R).
  { apply Rle_trans with (IZR (Qfloor x)); [apply IZR_le; lia|]. apply floorR. }
  destruct (exp2_num_std G tab pl eta delta Hf Ht Hp He Hd x Hx L Hu) as (q & w & A & B & _ & C). exists w, q.
  split; [exact A|]. split; [exact B|]. eapply Rle_trans; [apply C; auto|]. right. ring.
Qed.

(* tables of binary32 and binary64 *)
Definition tab32 : list Q := map (fun m => inject_Z m * p2 (-23))%Q
  (8388608 :: 9147842 :: 9975792 :: 10878679 :: 11863283 :: 12937002 :: 14107901 :: 15384775 :: 16777216 :: nil).

Definition tab64 : list Q := map (fun m => inject_Z m * p2 (-52))%Q
  (4503599627370496 :: 4911210218475899 :: 5355712719992597 :: 5840446135085607 :: 6369051672525773 ::
   6945500098633947 :: 7574121564787629 :: 8259638134547591 :: 9007199254740992 :: nil).

(* comparing a rational with an eighth root *)
Lemma root8 : forall i (q : Q), (0 < q)%Q -> 0 <= i ->
  ((q ^ 8 <= inject_Z (2 ^ i))%Q -> (Q2R q <= pow2 (IZR i / 8))%R) /\
  ((inject_Z (2 ^ i) <= q ^ 8)%Q -> (pow2 (IZR i / 8) <= Q2R q)%R).
Proof.
  intros i q Hq Hi.
  assert (P : (pow2 (IZR i / 8) ^ 8 = IZR (2 ^ i))%R).
  { rewrite <- p2R_Z by exact Hi. rewrite <- pow2_Z.
    transitivity (pow2 (IZR i/8+(IZR i/8+(IZR i/8+(IZR i/8+(IZR i/8+(IZR i/8+(IZR i/8+IZR i/8)))))))); [rewrite !pow2_plus; ring|].
    f_equal. field. }
  assert (Q8 : Q2R (q ^ 8) = (Q2R q ^ 8)%R) by (change 8 with (Z.of_nat 8); apply Q2R_pow).
  apply Qlt_Rlt in Hq. rewrite Q2R_0 in Hq. pose proof (pow2_pos (IZR i / 8)) as PP.
  assert (M : forall a b, (0 < a -> a < b -> a ^ 8 < b ^ 8)%R).
  { intros a b Ha Hb. assert (forall n, 0 < a ^ S n < b ^ S n)%R; [|apply (H 7%nat)].
    induction n as [|n IH]; [cbn [pow]; lra|]. change (a ^ S (S n))%R with (a * a ^ S n)%R. change (b ^ S (S n))%R with (b * b ^ S n)%R. nra. }
  split; intros H; apply Qle_Rle in H; rewrite Q8, Q2R_Z, <- P in H.
  - destruct (Rle_lt_dec (Q2R q) (pow2 (IZR i / 8))) as [|C]; auto. apply M in C; lra.
  - destruct (Rle_lt_dec (pow2 (IZR i / 8)) (Q2R q)) as [|C]; auto. apply M in C; lra.
Qed.

(* decision: m 2^e is the nearest number to 2^(i/8), within the rational eta *)
Definition entry_ok (p e i m : Z) (eta : Q) : bool :=
  let h := (inject_Z m * p2 e)%Q in
  let w := Qred eta in
  (2 ^ (p - 1) <? m) && (m <? 2 ^ p)
  && Qle_bool (Qred (h - p2 (e - 1)) ^ 8) (inject_Z (2 ^ i)) && Qle_bool (inject_Z (2 ^ i)) (Qred (h + p2 (e - 1)) ^ 8)
  && Qle_bool (Qred (h - w) ^ 8) (inject_Z (2 ^ i)) && Qle_bool (inject_Z (2 ^ i)) (Qred (h + w) ^ 8)
  && negb (Qle_bool (Qred (h - p2 (e - 1))) 0) && negb (Qle_bool (Qred (h - w)) 0) && Qle_bool 0 w.

Lemma entry_ok_spec : forall F e i m eta, 1 <= prec F -> exp_ok F e -> 0 <= i -> entry_ok (prec F) e i m eta = true ->
  nearestR F (inject_Z m * p2 e) (pow2 (IZR i / 8)) /\ (Rabs (Q2R (inject_Z m * p2 e) - pow2 (IZR i / 8)) <= Q2R eta)%R.
Proof.
  intros F e i m eta Hp Ho Hi H. unfold entry_ok in H. repeat rewrite andb_true_iff in H.
  destruct H as [[[[[[[[H1 H2] H3] H4] H5] H6] H7] H8] H9].
  apply Z.ltb_lt in H1, H2. apply Qle_bool_iff in H3, H4, H5, H6, H9.
  set (h := (inject_Z m * p2 e)%Q) in *.
  assert (N : forall a, negb (Qle_bool a 0) = true -> (0 < a)%Q).
  { intros a A. apply Bool.negb_true_iff in A. destruct (Qlt_le_dec 0 a) as [G0|C]; [exact G0|]. apply Qle_bool_iff in C. congruence. }
  apply N in H7, H8. pose proof (Qred_correct (h - p2 (e - 1))) as R1. pose proof (Qred_correct (h + p2 (e - 1))) as R2.
  pose proof (Qred_correct (h - Qred eta)) as R3. pose proof (Qred_correct (h + Qred eta)) as R4. pose proof (Qred_correct eta) as R5.
  pose proof (proj1 (root8 i _ H7 Hi) H3) as L1. pose proof (proj1 (root8 i _ H8 Hi) H5) as L2.
  assert (P2 : (0 < Qred (h + p2 (e - 1)))%Q).
  { rewrite R2. rewrite R1 in H7. pose proof (p2_pos (e - 1)) as X. apply Qlt_trans with (h - p2 (e - 1))%Q; auto.
    apply Rlt_Qlt. rewrite Q2R_minus, Q2R_plus. apply Qlt_Rlt in X. rewrite Q2R_0 in X. lra. }
  assert (P4 : (0 < Qred (h + Qred eta))%Q).
  { rewrite R4. rewrite R3 in H8. apply Rlt_Qlt. apply Qlt_Rlt in H8. apply Qle_Rle in H9. rewrite Q2R_minus in H8. rewrite Q2R_plus. rewrite Q2R_0 in *. lra. }
  pose proof (proj2 (root8 i _ P2 Hi) H4) as U1. pose proof (proj2 (root8 i _ P4 Hi) H6) as U2.
  apply Qeq_eqR in R1, R2, R3, R4, R5. rewrite R1, Q2R_minus in L1. rewrite R2, Q2R_plus in U1.
  rewrite R3, Q2R_minus, R5 in L2. rewrite R4, Q2R_plus, R5 in U2.
  split.
  - unfold h. apply nearestR_intro; auto; try lia. fold h. unfold h in L1, U1. rewrite Q2R_mult, Q2R_Z in L1, U1. apply Rabs_le. lra.
  - apply Rabs_le. lra.
Qed.

Lemma exact_entry : forall F h x eta, inF F h -> Q2R h = x -> (0 <= eta)%R -> nearestR F h x /\ (Rabs (Q2R h - x) <= eta)%R.
Proof.
  intros F h x eta I E He. rewrite E. replace (x - x)%R with 0%R by ring. rewrite Rabs_R0. split; [split; auto|auto].
  intros f _. rewrite E. replace (x - x)%R with 0%R by ring. rewrite Rabs_R0. apply Rabs_pos.
Qed.

Lemma table_ok : forall G e ms (eta : Q), exp2_fmt_ok G -> e = - fsz G -> (0 <= eta)%Q -> length ms = 9%nat ->
  nth 0 ms 0 = 2 ^ fsz G -> nth 8 ms 0 = 2 ^ (fsz G + 1) ->
  forallb (fun i => entry_ok (fsz G + 1) e i (nth (Z.to_nat i) ms 0) eta) (1 :: 2 :: 3 :: 4 :: 5 :: 6 :: 7 :: nil) = true ->
  tab_ok G (map (fun m => inject_Z m * p2 e)%Q ms) (Q2R eta).
Proof.
  intros G e ms eta Hf Ee He L N0 N8 H i Hi. pose proof Hf as (Hok & Hso & Hfs & Hw).
  pose proof (EF G Hso) as E. set (F := fmt_of G) in *.
  exists (inject_Z (nth (Z.to_nat i) ms 0%Z) * p2 e)%Q. split.
  { unfold load. destruct (Z.ltb_spec i 0); [lia|].
    rewrite nth_error_map, (nth_error_nth' ms 0) by lia. reflexivity. }
  assert (Hp : 1 <= prec F) by (rewrite E; cbn [prec]; lia).
  assert (Ho : exp_ok F e) by (rewrite E; unfold exp_ok; cbn [emin]; lia).
  assert (E0 : (0 <= Q2R eta)%R) by (rewrite <- Q2R_0; apply Qle_Rle; exact He).
  assert (P0 : forall j, 0 <= j <= 1 -> (Q2R (inject_Z (2 ^ (fsz G + j)) * p2 e) = pow2 (IZR j))%R).
  { intros j Hj. rewrite Q2R_mult, Q2R_Z, <- p2R_Z, <- p2R_plus, pow2_Z by lia. do 2 f_equal. lia. }
  assert (I0 : forall j, 0 <= j <= 1 -> inF F (inject_Z (2 ^ (fsz G + j)) * p2 e)).
  { intros j Hj. exists (2 ^ (fsz G + j)), e. split; [reflexivity|]. split; [|exact Ho]. rewrite E. cbn [prec].
    rewrite Z.abs_eq by (apply Z.pow_nonneg; lia). apply Z.pow_le_mono_r; lia. }
  destruct (Z.eq_dec i 0) as [->|Z0].
  { change (Z.to_nat 0) with 0%nat. rewrite N0. replace (fsz G) with (fsz G + 0) by lia.
    apply exact_entry; [apply I0; lia| |exact E0]. rewrite P0 by lia. f_equal. lra. }
  destruct (Z.eq_dec i 8) as [->|Z8].
  { change (Z.to_nat 8) with 8%nat. rewrite N8.
    apply exact_entry; [apply I0; lia| |exact E0]. rewrite P0 by lia. f_equal. lra. }
  apply entry_ok_spec; auto; [lia|].
  rewrite forallb_forall in H. replace (prec F) with (fsz G + 1) by (rewrite E; reflexivity). apply H.
  assert (D : i = 1 \/ i = 2 \/ i = 3 \/ i = 4 \/ i = 5 \/ i = 6 \/ i = 7) by lia.
  cbn [In]. intuition.
Qed.

Theorem tab32_ok : tab_ok ML_Binary32 tab32 (Q2R ((34 # 100) * p2 (-23))).
Proof.
  apply table_ok; try reflexivity; try (vm_compute; discriminate); try (vm_compute; reflexivity).
  repeat split; vm_compute; discriminate.
Qed.
Theorem tab64_ok : tab_ok ML_Binary64 tab64 (Q2R ((44 # 100) * p2 (-52))).
Proof.
  apply table_ok; try reflexivity; try (vm_compute; discriminate); try (vm_compute; reflexivity).
  repeat split; vm_compute; discriminate.
Qed.

(* a polynomial meeting the hypothesis: enough terms of the Taylor series *)
Definition taylor_pl (n : nat) (r : Q) : Q := (qexpT n (r * ln2_lo) - 1)%Q.

Lemma taylor_pl_ok : forall G n delta, (2 * (434 # 10000) ^ Z.of_nat n + (ln2_hi - ln2_lo) <= delta)%Q -> pl_ok G (taylor_pl n) (Q2R delta).
Proof.
  intros G n delta H r _ Hr. unfold taylor_pl. rewrite Q2R_minus, qexpT_expT, Q2R_1, Q2R_mult. unfold pow2.
  destruct ln2_bounds as [A B]. destruct ln2_num_bounds as [C D]. set (l := Q2R ln2_lo) in *. set (rr := Q2R r) in *.
  assert (L1 : (0.693 < l)%R).
  { replace 0.693%R with (Q2R (693 # 1000)) by (unfold Q2R; cbn [Qnum Qden]; lra). apply Qlt_Rlt. vm_compute. reflexivity. }
  assert (T : (Rabs (rr * l) <= 0.0434)%R).
  { rewrite Rabs_mult, (Rabs_pos_eq l) by lra. pose proof (Rabs_pos rr). nra. }
  assert (T2 : (Rabs (rr * ln 2) <= 0.0434)%R).
  { rewrite Rabs_mult, (Rabs_pos_eq (ln 2)) by lra. pose proof (Rabs_pos rr). nra. }
  assert (X : (Rabs (exp (rr * l) - exp (rr * ln 2)) <= Q2R ln2_hi - l)%R).
  { eapply Rle_trans; [apply (exp_lip 0.05); apply Rabs_le_inv in T; apply Rabs_le_inv in T2; lra|].
    replace (rr * l - rr * ln 2)%R with (- (rr * (ln 2 - l)))%R by ring. rewrite Rabs_Ropp, Rabs_mult, (Rabs_pos_eq (ln 2 - l)) by lra.
    assert (E05 : (exp 0.05 <= 1.4196)%R). { apply exp_num. rewrite Rabs_pos_eq; lra. }
    pose proof (exp_pos 0.05). pose proof (Rabs_pos rr).
    assert (Rabs rr * (ln 2 - l) <= 1 / 16 * (ln 2 - l))%R by (apply Rmult_le_compat_r; lra).
    assert (0 <= Rabs rr * (ln 2 - l))%R by (apply Rmult_le_pos; lra). nra. }
  assert (Y : (Rabs (exp (rr * l) - expT n (rr * l)) <= 2 * Rabs (rr * l) ^ n)%R) by (apply exp_taylor; lra).
  apply Qle_Rle in H. rewrite Q2R_plus, Q2R_mult, Q2R_pow, Q2R_minus in H.
  replace (Q2R 2) with 2%R in H by (unfold Q2R; cbn [Qnum Qden]; lra).
  replace (Q2R (434 # 10000)) with 0.0434%R in H by (unfold Q2R; cbn [Qnum Qden]; lra).
  assert (Z : (Rabs (rr * l) ^ n <= 0.0434 ^ n)%R) by (apply pow_incr; split; [apply Rabs_pos|exact T]).
  fold l in H. apply Rabs_le_inv in X. apply Rabs_le_inv in Y. apply Rabs_le. lra.
Qed.

Example exp2_accurate_case : pl_ok ML_Binary32 (taylor_pl 8) (Q2R (p2 (-28))) /\ pl_ok ML_Binary64 (taylor_pl 14) (Q2R (p2 (-56))).
Proof. split; apply taylor_pl_ok; vm_compute; discriminate. Qed.

(* binary32: less than one unit in the last place, with a polynomial within 2^-28 *)
Theorem exp2_binary32 : forall pl ck ci v x E, pl_ok ML_Binary32 pl (Q2R (p2 (-28))) -> finite_datum ML_Binary32 v x ->
  binade (pow2 (Q2R x)) E -> -122 <= E -> (Q2R x < 128 - 1 / 16)%R -> (0 <= x)%Q \/ (x <= - (1 # 2))%Q ->
  exists w q, exp2_scheme ML_Binary32 tab32 pl ck ci v = Some w /\ fval w = Some q /\
    (Rabs (Q2R q - pow2 (Q2R x)) < ulpR ML_Binary32 E)%R.
Proof.
  intros pl ck ci v x E Hpl Hv HE H4 Hu XX.
  assert (Hf : exp2_fmt_ok ML_Binary32) by (repeat split; vm_compute; discriminate).
  assert (E24 : Q2R (p2 (- fsz ML_Binary32 - 1)) = (/ 16777216)%R) by (change (p2 (- fsz ML_Binary32 - 1)) with (1 # 16777216)%Q; unfold Q2R; cbn [Qnum Qden]; lra).
  assert (E28 : Q2R (p2 (-28)) = (/ 16 * / 16777216)%R) by (change (p2 (-28)) with (1 # 268435456)%Q; unfold Q2R; cbn [Qnum Qden]; lra).
  assert (ET : Q2R ((34 # 100) * p2 (-23)) = (0.68 * / 16777216)%R).
  { rewrite Q2R_mult. change (p2 (-23)) with (1 # 8388608)%Q. unfold Q2R; cbn [Qnum Qden]; lra. }
  destruct (exp2_accurate_std ML_Binary32 tab32 pl _ _ Hf tab32_ok Hpl) with (ck := ck) (ci := ci) (v := v) (x := x) (E := E)
    as (w & q & A & B & C); auto.
  - rewrite ET, E24. lra.
  - rewrite E28, E24. lra.
  - exists w, q. split; [exact A|]. split; [exact B|]. eapply Rle_lt_trans; [exact C|].
    rewrite ET, E28. unfold ulpR. change (emin_normal ML_Binary32) with (-126). change (fsz ML_Binary32) with 23.
    replace (Z.max E (-126)) with E by lia. rewrite (p2R_sub E 23) by lia. change (IZR (2 ^ 23)) with 8388608%R.
    pose proof (p2R_pos E). lra.
Qed.

(* ---- C103: special data and the ends of the range ---- *)

Theorem exp2_special : forall G tab pl ck ci,
  exp2_scheme G tab pl ck ci PInf = Some PInf /\ exp2_scheme G tab pl ck ci MInf = Some PZero.
Proof. split; reflexivity. Qed.

Theorem exp2_overflow : forall G tab pl ck ci x, (inject_Z (emax G + 1) <= x)%Q -> exp2_scheme G tab pl ck ci (Num x) = Some PInf.
Proof.
  intros G tab pl ck ci x H. cbn [exp2_scheme]. unfold exp2_num. apply Qle_bool_iff in H. rewrite H. reflexivity.
Qed.

(* Just below the overflow bound, the table entry is 2, its product by 2^emax overflows,
   and the sum of two infinities is a NaN, although 2^x is in range. *)
Theorem exp2_nan_below_overflow_refuted : forall G tab pl eta delta, exp2_fmt_ok G -> tab_ok G tab eta -> pl_ok G pl delta ->
  (0 <= eta <= Q2R (p2 (- fsz G - 1)))%R -> (0 <= delta <= Q2R (p2 (- fsz G - 1)) / 8)%R ->
  forall ck ci x, inF (fmt_of G) x -> (IZR (emax G + 1) - 1 / 16 <= Q2R x < IZR (emax G + 1))%R ->
  exp2_scheme G tab pl ck ci (Num x) = Some QNaN.
Proof.
  intros G tab pl eta delta Hf Ht Hp He Hd ck ci x Hx [L U]. cbn [exp2_scheme].
  pose proof Hf as (Hok & Hso & Hfs & Hw). pose proof (emax_emin G Hok) as EM. pose proof (EF G Hso) as E.
  replace (- fsz G - 1) with (- (fsz G + 1)) in He, Hd by lia.
  set (F := fmt_of G) in *. set (rnd := rne F).
  assert (Hr : nearest_in (mkF (fsz G + 1) (Some (emin_normal G - fsz G))) rnd).
  { rewrite <- E. apply rne_nearest. rewrite E. cbn [prec]. lia. }
  assert (Hp1 : 1 <= prec F) by (rewrite E; cbn [prec]; lia).
  assert (BE : (12 <= IZR (emax G))%R) by (apply IZR_le; lia).
  assert (K : Qfloor x = emax G).
  { destruct (floorR x) as [A B]. rewrite plus_IZR in L, U.
    assert (Qfloor x < emax G + 1) by (apply lt_IZR; rewrite plus_IZR; lra).
    assert (emax G < Qfloor x + 1) by (apply lt_IZR; rewrite plus_IZR; lra). lia. }
  assert (X0 : (0 <= x)%Q) by (apply Rle_Qle; rewrite Q2R_0; rewrite plus_IZR in L; lra).
  assert (HxF : inF (mkF (fsz G + 1) (Some (emin_normal G - fsz G))) x) by (rewrite <- E; exact Hx).
  pose proof (vx_r_exact _ _ rnd Hr ltac:(lia) ltac:(lia) x HxF (or_introl X0)) as VE. rewrite K in VE.
  assert (VR : Q2R (vx_r rnd x) = (Q2R x - IZR (emax G))%R) by (apply Qeq_eqR in VE; rewrite VE, Q2R_minus, Q2R_Z; ring).
  assert (I8 : r_hi rnd x = 8).
  { assert (RE : r_hi rnd x = qrne (vx_r rnd x * inject_Z 8)) by (apply (r_hi_eq (fsz G + 1) (emin_normal G - fsz G)); auto; lia).
    rewrite RE. apply Z.le_antisymm.
    - apply qrne_bounds_int. apply Rle_Qle. rewrite Q2R_mult, !Q2R_Z, VR. rewrite plus_IZR in U. lra.
    - change (qrne (15 # 2) <= qrne (vx_r rnd x * inject_Z 8)). apply qrne_mono. apply Rle_Qle. rewrite Q2R_mult, Q2R_Z, VR.
      replace (Q2R (15 # 2)) with (15 / 2)%R by (unfold Q2R; cbn [Qnum Qden]; lra). rewrite plus_IZR in L. lra. }
  (* the distance to the bound *)
  assert (DX : (Q2R x <= IZR (emax G + 1) - Q2R (p2 (- (fsz G + 1))))%R).
  { assert (M : mult (- (fsz G + 1)) (inject_Z (emax G + 1) - x)).
    { apply mult_minus.
      - apply (mult_le 0); [lia|]. exists (emax G + 1). rewrite p2_0. ring.
      - apply (inF_big F Hp1); auto. rewrite E; cbn [prec]. replace (fsz G + 1 + - (fsz G + 1) - 1) with (-1) by lia.
        rewrite Qabs_pos by exact X0. apply Rlt_Qlt. replace (Q2R (p2 (-1))) with (1 / 2)%R by (cbv; lra). rewrite plus_IZR in L. lra. }
    assert (P : (0 < inject_Z (emax G + 1) - x)%Q) by (apply Rlt_Qlt; rewrite Q2R_0, Q2R_minus, Q2R_Z; lra).
    assert (NZ : ~ (inject_Z (emax G + 1) - x == 0)%Q) by (intros C; rewrite C in P; discriminate).
    pose proof (mult_nz _ _ M NZ) as B. rewrite Qabs_pos in B by (apply Qlt_le_weak; exact P).
    apply Qle_Rle in B. rewrite Q2R_minus, Q2R_Z in B. lra. }
  set (u := Q2R (p2 (- (fsz G + 1)))) in *.
  assert (U12 : (0 < u <= / 4096)%R).
  { unfold u. split; [apply p2R_pos|]. eapply Rle_trans; [apply (p2R_le _ (-12)); lia|].
    pose proof (p2R_neg 12 ltac:(lia)) as EE. change (- (12)) with (-12) in EE. rewrite EE. right. reflexivity. }
  (* the polynomial is negative *)
  set (r := r_lo rnd x).
  assert (RV : Q2R r = (Q2R x - IZR (emax G) - 1)%R).
  { destruct (r_lo_exact _ _ rnd Hr ltac:(lia) ltac:(lia) x) as [A _]. apply Qeq_eqR in A. fold r in A. rewrite I8 in A.
    rewrite A, Q2R_minus, VR. replace (Q2R (inject_Z 8 * (1 # 8))) with 1%R by (cbv; lra). ring. }
  assert (RN : (Q2R r <= - u)%R) by (rewrite RV; rewrite plus_IZR in DX; lra).
  assert (RS : (Rabs (Q2R r) <= 1 / 16)%R) by (rewrite RV; rewrite plus_IZR in L; apply Rabs_le; lra).
  assert (PN : (Q2R (pl r) < 0)%R).
  { assert (IR : inF F r) by (unfold r, r_lo; apply (rnd_inF F rnd); rewrite E; exact Hr).
    pose proof (Hp r IR RS) as A. apply Rabs_le_inv in A.
    assert (B : (pow2 (Q2R r) <= pow2 (- u))%R) by (apply pow2_le; exact RN).
    destruct ln2_num_bounds as [C D]. set (t := (- u * ln 2)%R).
    assert (UL : (0.693 * u <= u * ln 2 <= 0.6932 * u)%R) by (split; nra).
    assert (TE : (Rabs t = u * ln 2)%R) by (unfold t; replace (- u * ln 2)%R with (- (u * ln 2))%R by ring; rewrite Rabs_Ropp, Rabs_pos_eq; lra).
    assert (TA : (Rabs t <= 0.0002)%R) by lra.
    pose proof (exp_taylor 2 t ltac:(lra)) as T2.
    assert (E2 : (expT 2 t = 1 + t)%R).
    { cbn [expT]. rewrite !INR_IZR_INZ. change (Z.of_nat (fact 0)) with 1. change (Z.of_nat (fact 1)) with 1. field. }
    rewrite E2 in T2. apply Rabs_le_inv in T2. unfold pow2 in B at 2. fold t in B.
    assert (TT : (2 * Rabs t ^ 2 <= 0.001 * u)%R).
    { rewrite TE. cbn [pow]. set (w := (u * ln 2)%R) in *. nra. }
    assert (t <= - 0.693 * u)%R by (unfold t; lra). lra. }
  destruct (entry G tab eta Hf Ht x) as (hi & EL & Ih & Bh & _ & _ & Th).
  fold F in EL, Th. fold rnd in EL, Th. specialize (Th I8).
  unfold exp2_num. fold F rnd r. rewrite EL.
  assert (Q1 : Qle_bool (inject_Z (emax G + 1)) x = false).
  { apply Bool.not_true_iff_false. intros C. apply Qle_bool_iff in C. apply Qle_Rle in C. rewrite Q2R_Z in C. lra. }
  assert (Q2 : Qle_bool (inject_Z (emin_normal G)) x = true).
  { apply Qle_bool_iff, Rle_Qle. rewrite Q2R_Z. assert (IZR (emin_normal G) <= 0)%R by (apply IZR_le; lia). rewrite plus_IZR in L. lra. }
  rewrite Q1, Q2. cbn [negb orb option_map]. f_equal. rewrite K.
  assert (NH : num hi = Num hi).
  { unfold num. destruct (Qeq_bool hi 0) eqn:Z0; [|reflexivity]. apply Qeq_bool_iff in Z0. rewrite Z0 in Th. discriminate. }
  assert (NP : num (pl r) = Num (pl r)).
  { unfold num. destruct (Qeq_bool (pl r) 0) eqn:Z0; [|reflexivity]. apply Qeq_bool_iff, Qeq_eqR in Z0. rewrite Q2R_0 in Z0. lra. }
  destruct (exp_ins_val G Hok ltac:(lia) (emax G)) as (qk & EK & VK); [lia|].
  assert (H1 : f_mul G (num hi) (exp_ins G (emax G)) = PInf).
  { rewrite NH, EK, f_mul_num.
    - rewrite (sollya_round_comp G _ (p2 (emax G + 1))) by (rewrite Th, VK, p2_plus; change (p2 1) with 2%Q; ring).
      destruct (sollya_round_cases G (p2 (emax G + 1))) as [(s & _ & _ & S)|[S _]]; [|rewrite S; reflexivity].
      exfalso. fold F rnd in S.
      assert (RE : (rnd (p2 (emax G + 1)) == p2 (emax G + 1))%Q).
      { apply (rnd_id F rnd); [rewrite E; exact Hr|]. apply (inF_comp F (inject_Z 1 * p2 (emax G + 1))); [change (inject_Z 1) with 1%Q; ring|].
        apply dy_in; auto; [lia|cbn; lia]. }
      rewrite RE, Qabs_pos in S by (apply Qlt_le_weak, p2_pos). apply (Qlt_irrefl _ S).
    - rewrite Th. reflexivity.
    - rewrite VK. apply p2_pos. }
  unfold exp2_std. rewrite H1, NP.
  assert (H2 : f_mul G PInf (Num (pl r)) = MInf).
  { unfold f_mul, f_neg. assert (Qle_bool 0 (pl r) = false) as Q.
    { apply Bool.not_true_iff_false. intros C. apply Qle_bool_iff, Qle_Rle in C. rewrite Q2R_0 in C. lra. }
    rewrite Q. reflexivity. }
  rewrite H2. reflexivity.
Qed.

(* the results at the integers are exact *)
Theorem exp2_integer : forall G tab pl eta, exp2_fmt_ok G -> tab_ok G tab eta -> (forall r, r == 0 -> pl r == 0)%Q ->
  forall ck ci k, emin_subnormal G < k <= emax G ->
  exists w q, exp2_scheme G tab pl ck ci (Num (inject_Z k)) = Some w /\ fval w = Some q /\ (q == p2 k)%Q.
Proof.
  intros G tab pl eta Hf Ht Hp ck ci k Hk. cbn [exp2_scheme].
  pose proof Hf as (Hok & Hso & Hfs & Hw). pose proof (emax_emin G Hok) as EM. pose proof (EF G Hso) as E.
  set (F := fmt_of G) in *. set (rnd := rne F).
  assert (Hp1 : 1 <= prec F) by (rewrite E; cbn [prec]; lia).
  assert (Hr : nearest_in F rnd) by (apply rne_nearest; exact Hp1).
  assert (R0 : forall q, (q == 0)%Q -> (rnd q == 0)%Q).
  { intros q Eq. rewrite (rnd_comp F rnd Hr q 0 Eq). apply (rnd_id F rnd Hr). apply inF_0. exact Hp1. }
  assert (V0 : (vx_r rnd (inject_Z k) == 0)%Q) by (unfold vx_r; rewrite Qfloor_Z; apply R0; ring).
  assert (I0 : r_hi rnd (inject_Z k) = 0).
  { unfold r_hi. rewrite (qrne_comp _ 0); [reflexivity|]. apply R0. rewrite V0. ring. }
  assert (L0 : (r_lo rnd (inject_Z k) == 0)%Q).
  { unfold r_lo. rewrite I0. apply R0. rewrite V0, R0; [ring|]. ring. }
  pose proof (Hp _ L0) as P0.
  destruct (Ht 0 ltac:(lia)) as (h & LD & [IH NE] & _).
  assert (I1 : inF F 1) by (apply (inF_comp F (inject_Z 1 * p2 0)); [reflexivity|apply dy_in; auto; [lia|cbn; lia]]).
  assert (H1 : (h == 1)%Q).
  { specialize (NE 1%Q I1). replace (pow2 (IZR 0 / 8)) with 1%R in NE by (unfold pow2; replace (IZR 0 / 8 * ln 2)%R with 0%R by (unfold Rdiv; ring); rewrite exp_0; reflexivity).
    rewrite Q2R_1 in NE. replace (1 - 1)%R with 0%R in NE by ring. rewrite Rabs_R0 in NE.
    apply Rabs_le_inv in NE. apply eqR_Qeq. rewrite Q2R_1. lra. }
  assert (IK : inF F (h * p2 k)).
  { apply (inF_comp F (inject_Z 1 * p2 k)); [rewrite H1; reflexivity|]. apply dy_in; auto; [unfold emin_subnormal, emin_normal in *; lia|cbn; lia]. }
  assert (BH : (1 <= h <= 2)%Q) by (rewrite H1; split; discriminate).
  assert (BP : (Qabs (pl (r_lo rnd (inject_Z k))) <= 3 # 64)%Q) by (rewrite P0; discriminate).
  unfold exp2_num. fold F rnd. rewrite I0. change (clamp 0) with 0. rewrite LD, Qfloor_Z.
  assert (Q1 : Qle_bool (inject_Z (emax G + 1)) (inject_Z k) = false).
  { apply Bool.not_true_iff_false. intros C. apply Qle_bool_iff in C. rewrite <- Zle_Qle in C. lia. }
  rewrite Q1. cbn [orb]. destruct (Qle_bool (inject_Z (emin_normal G)) (inject_Z k)) eqn:Q2.
  - apply Qle_bool_iff in Q2. rewrite <- Zle_Qle in Q2. cbn [negb option_map].
    assert (HV : k < emax G \/ (h <= 15 # 8)%Q) by (right; rewrite H1; discriminate).
    destruct (std_value G Hok Hso Hfs h (pl (r_lo rnd (inject_Z k))) IH BH BP k (conj Q2 (proj2 Hk)) HV) as (q & A & B).
    eexists. exists q. split; [reflexivity|]. split; [exact A|]. rewrite B. fold F rnd.
    assert (RK : (rnd (h * p2 k) == p2 k)%Q) by (rewrite (rnd_id F rnd Hr) by exact IK; rewrite H1; ring).
    eapply Qeq_trans; [|exact RK]. apply (rnd_comp F rnd Hr).
    assert (Z0 : (rnd (h * p2 k * pl (r_lo rnd (inject_Z k))) == 0)%Q) by (apply R0; rewrite P0; ring).
    change (rnd (h * p2 k * pl (r_lo rnd (inject_Z k))) + h * p2 k == h * p2 k)%Q. rewrite Z0. ring.
  - assert (Q3 : k < emin_normal G).
    { apply Bool.not_true_iff_false in Q2. destruct (Z_lt_le_dec k (emin_normal G)) as [|N]; auto. exfalso. apply Q2. apply Qle_bool_iff. rewrite <- Zle_Qle. exact N. }
    assert (Q4 : Qle_bool (inject_Z k) (inject_Z (emin_subnormal G)) = false).
    { apply Bool.not_true_iff_false. intros C. apply Qle_bool_iff in C. rewrite <- Zle_Qle in C. lia. }
    rewrite Q4. cbn [negb option_map].
    assert (K1 : emin_normal G - fsz G <= k) by (unfold emin_subnormal, emin_normal in *; lia).
    destruct (sub_value G Hok Hso Hfs Hw h (pl (r_lo rnd (inject_Z k))) IH BH BP k (conj K1 Q3)) as (q & A & B).
    eexists. exists q. split; [reflexivity|]. split; [exact A|]. rewrite B. fold F rnd.
    assert (RK : (rnd (h * p2 k) == p2 k)%Q) by (rewrite (rnd_id F rnd Hr) by exact IK; rewrite H1; ring).
    assert (Z0 : (rnd (rnd (h * p2 k) * pl (r_lo rnd (inject_Z k))) == 0)%Q) by (apply R0; rewrite P0; ring).
    eapply Qeq_trans; [|exact RK]. apply (rnd_comp F rnd Hr).
    change (rnd (rnd (h * p2 k) * pl (r_lo rnd (inject_Z k))) + rnd (h * p2 k) == h * p2 k)%Q. rewrite Z0, RK, H1. ring.
Qed.

(* Below: zero is returned from the smallest subnormal number on, although 2^x is
   representable there and above one half of it for one more unit. *)
Theorem exp2_underflow : forall G tab pl ck ci x, exp2_fmt_ok G -> (x <= inject_Z (emin_subnormal G))%Q ->
  exp2_scheme G tab pl ck ci (Num x) = Some PZero.
Proof.
  intros G tab pl ck ci x (Hok & Hso & Hfs & Hw) H. cbn [exp2_scheme]. unfold exp2_num.
  pose proof (emax_emin G Hok) as EM.
  assert (ES : emin_subnormal G < emin_normal G) by (unfold emin_subnormal, emin_normal; lia).
  assert (Q1 : Qle_bool (inject_Z (emax G + 1)) x = false).
  { apply Bool.not_true_iff_false. intros C. apply Qle_bool_iff in C. pose proof (Qle_trans _ _ _ C H) as D. rewrite <- Zle_Qle in D. lia. }
  assert (Q2 : Qle_bool (inject_Z (emin_normal G)) x = false).
  { apply Bool.not_true_iff_false. intros C. apply Qle_bool_iff in C. pose proof (Qle_trans _ _ _ C H) as D. rewrite <- Zle_Qle in D. lia. }
  apply Qle_bool_iff in H. rewrite Q1, Q2, H. reflexivity.
Qed.

Theorem exp2_underflow_refuted : forall G tab pl ck ci, exp2_fmt_ok G ->
  (exp2_scheme G tab pl ck ci (Num (inject_Z (emin_subnormal G))) = Some PZero
   /\ pow2 (IZR (emin_subnormal G)) = Q2R (p2 (emin_subnormal G)) /\ inF (fmt_of G) (p2 (emin_subnormal G)))
  /\ forall x, (IZR (emin_subnormal G) - 1 < Q2R x <= IZR (emin_subnormal G))%R ->
     exp2_scheme G tab pl ck ci (Num x) = Some PZero
     /\ (Rabs (Q2R (p2 (emin_subnormal G)) - pow2 (Q2R x)) < Rabs (0 - pow2 (Q2R x)))%R.
Proof.
  intros G tab pl ck ci Hf. pose proof Hf as (Hok & Hso & Hfs & Hw). split.
  - split; [apply exp2_underflow; auto; apply Qle_refl|]. split; [apply pow2_Z|].
    apply (inF_comp _ (inject_Z 1 * p2 (emin_subnormal G))); [change (inject_Z 1) with 1%Q; ring|].
    apply dy_in; auto; [unfold emin_subnormal, emin_normal; lia|cbn; lia].
  - intros x [A B]. split; [apply exp2_underflow; auto; apply Rle_Qle; rewrite Q2R_Z; exact B|].
    rewrite <- pow2_Z. apply pow2_le in B. pose proof (pow2_pos (Q2R x)) as P.
    apply pow2_lt in A. replace (IZR (emin_subnormal G) - 1)%R with (IZR (emin_subnormal G - 1)) in A by (rewrite minus_IZR; ring).
    assert (S : pow2 (IZR (emin_subnormal G)) = (2 * pow2 (IZR (emin_subnormal G - 1)))%R).
    { rewrite !pow2_Z. set (z := emin_subnormal G). replace z with (z - 1 + 1) at 1 by lia.
      rewrite (Qeq_eqR _ _ (p2_plus (z - 1) 1)), Q2R_mult. replace (Q2R (p2 1)) with 2%R by (cbv; lra). ring. }
    rewrite Rabs_pos_eq by lra. replace (0 - pow2 (Q2R x))%R with (- pow2 (Q2R x))%R by ring. rewrite Rabs_Ropp, Rabs_pos_eq by lra. lra.
Qed.

(* rational bounds of 2^q *)
Lemma pow2_bounds : forall n q (a b : Q), (0 <= q)%Q -> (a <= ln2_lo)%Q -> (ln2_hi <= b)%Q -> (0 <= a)%Q -> (q * b <= 1 # 2)%Q ->
  (Q2R (qexpT n (q * a) - 2 * (q * a) ^ Z.of_nat n) <= pow2 (Q2R q) <= Q2R (qexpT n (q * b) + 2 * (q * b) ^ Z.of_nat n))%R.
Proof.
  intros n q a b Hq Ha Hb Ha0 Hqb. destruct ln2_bounds as [A B].
  apply Qle_Rle in Hq. apply Qle_Rle in Ha. apply Qle_Rle in Hb. apply Qle_Rle in Ha0. apply Qle_Rle in Hqb.
  rewrite Q2R_0 in Hq, Ha0. rewrite Q2R_mult in Hqb. replace (Q2R (1 # 2)) with (1 / 2)%R in Hqb by (unfold Q2R; cbn [Qnum Qden]; lra).
  rewrite Q2R_minus, Q2R_plus, !Q2R_mult, !Q2R_pow, !qexpT_expT, !Q2R_mult. replace (Q2R 2) with 2%R by (unfold Q2R; cbn [Qnum Qden]; lra).
  set (t := Q2R q) in *. set (la := Q2R a) in *. set (lb := Q2R b) in *. unfold pow2.
  assert (M : forall u v, (u <= v -> exp u <= exp v)%R).
  { intros u v [L| ->]; [left; apply exp_increasing; exact L|right; reflexivity]. }
  assert (O1 : (0 <= t * la)%R) by (apply Rmult_le_pos; lra).
  assert (O2 : (t * la <= t * ln 2)%R) by (apply Rmult_le_compat_l; lra).
  assert (O3 : (t * ln 2 <= t * lb)%R) by (apply Rmult_le_compat_l; lra).
  assert (T1 : (Rabs (exp (t * la) - expT n (t * la)) <= 2 * Rabs (t * la) ^ n)%R) by (apply exp_taylor; rewrite Rabs_pos_eq; lra).
  assert (T2 : (Rabs (exp (t * lb) - expT n (t * lb)) <= 2 * Rabs (t * lb) ^ n)%R) by (apply exp_taylor; rewrite Rabs_pos_eq; lra).
  rewrite (Rabs_pos_eq (t * la)) in T1 by lra. rewrite (Rabs_pos_eq (t * lb)) in T2 by lra.
  apply Rabs_le_inv in T1. apply Rabs_le_inv in T2. apply M in O2. apply M in O3. lra.
Qed.

(* In the subnormal range the result is not always one of the two neighbours: an input
   for which every polynomial within 2^-27 gives an error above 1.1 units. *)
Definition bad_x : Q := - (8296515 # 65536).
Theorem exp2_faithful_refuted : forall pl ck ci, pl_ok ML_Binary32 pl (Q2R (p2 (-27))) ->
  inF (fmt_of ML_Binary32) bad_x /\
  exists w q, exp2_scheme ML_Binary32 tab32 pl ck ci (Num bad_x) = Some w /\ fval w = Some q /\
    (1.1 * Q2R (p2 (-149)) < Q2R q - pow2 (Q2R bad_x))%R.
Proof.
  intros pl ck ci Hp.
  assert (IX : inF (fmt_of ML_Binary32) bad_x) by (exists (-8296515), (-16); split; [reflexivity|]; split; vm_compute; discriminate).
  split; [exact IX|]. cbn [exp2_scheme].
  assert (Hf : exp2_fmt_ok ML_Binary32) by (repeat split; vm_compute; discriminate). pose proof Hf as (Hok & Hso & Hfs & Hw).
  set (F := fmt_of ML_Binary32) in *. set (rnd := rne F).
  assert (Hr : nearest_in F rnd) by (apply rne_nearest; vm_compute; discriminate).
  assert (RL : (r_lo rnd bad_x == 1981 # 65536)%Q) by (vm_compute; reflexivity).
  assert (IR : inF F (r_lo rnd bad_x)) by (apply (rnd_inF F rnd Hr)).
  set (r := r_lo rnd bad_x) in *.
  set (hi := (inject_Z 10878679 * p2 (-23))%Q).
  assert (RR : Q2R r = (1981 / 65536)%R) by (rewrite (Qeq_eqR _ _ RL); unfold Q2R; cbn [Qnum Qden]; lra).
  assert (PB : (115168501 # 5439340000 <= pl r)%Q).
  { assert (RS : (Rabs (Q2R r) <= 1 / 16)%R) by (rewrite RR; apply Rabs_le; lra).
    pose proof (Hp r IR RS) as A. apply Rabs_le_inv in A.
    destruct (pow2_bounds 8 (1981 # 65536) (6931471805 # 10000000000) (6931471806 # 10000000000) ltac:(discriminate) ltac:(vm_compute; discriminate) ltac:(vm_compute; discriminate) ltac:(discriminate) ltac:(vm_compute; discriminate)) as [L _].
    rewrite (Qeq_eqR _ _ RL) in A. apply Rle_Qle.
    assert (N : (Q2R (115168501 # 5439340000) + Q2R (p2 (-27)) <= Q2R (qexpT 8 ((1981 # 65536) * (6931471805 # 10000000000)) - 2 * ((1981 # 65536) * (6931471805 # 10000000000)) ^ Z.of_nat 8) - 1)%R).
    { rewrite <- Q2R_plus, <- Q2R_1, <- Q2R_minus. apply Qle_Rle. vm_compute. discriminate. }
    lra. }
  assert (PB2 : (Qabs (pl r) <= 3 # 64)%Q).
  { assert (RS : (Rabs (Q2R r) <= 1 / 16)%R) by (rewrite RR; apply Rabs_le; lra).
    pose proof (Hp r IR RS) as A. apply Rabs_le_inv in A. pose proof (pow2_small (Q2R r) RS) as B. apply Rabs_le_inv in B.
    assert (C : (Q2R (p2 (-27)) <= 0.001)%R) by (change (p2 (-27)) with (1 # 134217728)%Q; unfold Q2R; cbn [Qnum Qden]; lra).
    apply Qabs_Qle_condition. split; apply Rle_Qle; [rewrite Q2R_opp|]; replace (Q2R (3 # 64)) with (3 / 64)%R by (unfold Q2R; cbn [Qnum Qden]; lra); lra. }
  assert (IH : inF F hi) by (exists 10878679, (-23); split; [reflexivity|]; split; vm_compute; discriminate).
  assert (BH : (1 <= hi <= 2)%Q) by (split; vm_compute; discriminate).
  assert (EL : load tab32 (clamp (r_hi rnd bad_x)) = Some hi) by (vm_compute; reflexivity).
  assert (KX : Qfloor bad_x = -127) by reflexivity.
  assert (KR : emin_normal ML_Binary32 - fsz ML_Binary32 <= -127 < emin_normal ML_Binary32) by (split; vm_compute; congruence).
  destruct (sub_value ML_Binary32 Hok Hso Hfs Hw hi (pl r) IH BH PB2 (-127) KR) as (q & A & B).
  exists (exp2_sub ML_Binary32 (num hi) (num (pl r)) (-127)), q. split; [|split; [exact A|]].
  - unfold exp2_num. fold F rnd r. rewrite EL, KX.
    change (Qle_bool (inject_Z (emax ML_Binary32 + 1)) bad_x) with false.
    change (Qle_bool (inject_Z (emin_normal ML_Binary32)) bad_x) with false.
    change (Qle_bool bad_x (inject_Z (emin_subnormal ML_Binary32))) with false. reflexivity.
  - assert (R1 : (rnd (hi * p2 (-127)) == inject_Z 5439340 * p2 (-149))%Q) by (vm_compute; reflexivity).
    assert (LQ : (inject_Z 5554509 * p2 (-149) <= q)%Q).
    { rewrite B. fold F. fold rnd.
      apply (rnd_ge_F F rnd Hr); [exists 5554509, (-149); split; [reflexivity|]; split; vm_compute; discriminate|].
      assert (L1 : (inject_Z 115169 * p2 (-149) <= rnd (rnd (hi * p2 (-127)) * pl r))%Q).
      { eapply Qle_trans; [|apply (rnd_mono F rnd Hr (inject_Z 5439340 * p2 (-149) * (115168501 # 5439340000)))].
        - vm_compute. discriminate.
        - rewrite R1. rewrite (Qmult_comm _ (115168501 # 5439340000)), (Qmult_comm _ (pl r)). apply Qmult_le_compat_r; [exact PB|vm_compute; discriminate]. }
      assert (L2 : (inject_Z 5439340 * p2 (-149) <= rnd (hi * p2 (-127)))%Q) by (rewrite R1; apply Qle_refl).
      apply Qle_trans with (inject_Z 115169 * p2 (-149) + inject_Z 5439340 * p2 (-149))%Q; [vm_compute; discriminate|].
      apply Qplus_le_compat; [exact L1|exact L2]. }
    apply Qle_Rle in LQ.
    assert (SP : pow2 (Q2R bad_x) = (Q2R (p2 (-127)) * pow2 (Q2R (26557 # 65536)))%R).
    { rewrite <- pow2_Z, <- pow2_plus. f_equal. unfold bad_x, Q2R. cbn [Qnum Qden Qopp Z.opp]. lra. }
    destruct (pow2_bounds 16 (26557 # 65536) (6931471805 # 10000000000) (6931471806 # 10000000000) ltac:(discriminate) ltac:(vm_compute; discriminate) ltac:(vm_compute; discriminate) ltac:(discriminate) ltac:(vm_compute; discriminate)) as [_ U].
    assert (N : (Q2R (p2 (-127)) * Q2R (qexpT 16 ((26557 # 65536) * (6931471806 # 10000000000)) + 2 * ((26557 # 65536) * (6931471806 # 10000000000)) ^ Z.of_nat 16) < Q2R (inject_Z 5554509 * p2 (-149)) - Q2R ((11 # 10) * p2 (-149)))%R).
    { rewrite <- Q2R_minus, <- Q2R_mult. apply Qlt_Rlt. vm_compute. reflexivity. }
    rewrite (Q2R_mult (11 # 10)) in N. replace (Q2R (11 # 10)) with 1.1%R in N by (unfold Q2R; cbn [Qnum Qden]; lra).
    assert (N2 : (Q2R (p2 (-127)) * pow2 (Q2R (26557 # 65536)) <= Q2R (p2 (-127)) * Q2R (qexpT 16 ((26557 # 65536) * (6931471806 # 10000000000)) + 2 * ((26557 # 65536) * (6931471806 # 10000000000)) ^ Z.of_nat 16))%R).
    { apply Rmult_le_compat_l; [left; apply p2R_pos|exact U]. }
    rewrite SP. lra.
Qed.

Example exp2_integer_case : pl_ok ML_Binary32 (taylor_pl 8) (Q2R (p2 (-27))) /\ (taylor_pl 8 0 == 0)%Q /\
  emin_subnormal ML_Binary32 = -149 /\ emax ML_Binary32 = 127.
Proof.
  split; [apply taylor_pl_ok; vm_compute; discriminate|]. repeat split.
Qed.

(* the interval of the overflow refutation contains numbers of the format *)
Example exp2_nan_case : inF (fmt_of ML_Binary32) (4095 # 32) /\ (127 + (15 # 16) <= 4095 # 32)%Q /\ (4095 # 32 < 128)%Q.
Proof. split; [exists 4095, (-5); split; [reflexivity|]; split; vm_compute; discriminate|]. split; [discriminate|reflexivity]. Qed.

Print Assumptions exp2_reduction.
Print Assumptions exp2_clamp_refuted.
Print Assumptions exp2_accurate.
Print Assumptions exp2_accurate_std.
Print Assumptions exp2_binary32.
Print Assumptions exp2_nan.
Print Assumptions exp2_special.
Print Assumptions exp2_overflow.
Print Assumptions exp2_nan_below_overflow_refuted.
Print Assumptions exp2_integer.
Print Assumptions exp2_underflow.
Print Assumptions exp2_underflow_refuted.
Print Assumptions exp2_faithful_refuted.
