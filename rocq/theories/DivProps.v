(* Properties of the division scheme: seeds, special cases, instances. *)
From Coq Require Import ZArith QArith Qround Qabs Lia Lqa Bool List.
From Verif Require Import QUtil FpFormatModel FpFormatSpec SpecialModel SpecialSpec RoundSpec RoundProofs RoundRne VeltProofs DivModel DivCore DivProofs DivRange DivScheme DivOnes.
From Verif Require FpFormatProofs FpFormatProofs2.
Open Scope Z_scope.

(* ---- accuracy of a seed table, for every operand ---- *)
Definition Qle_abs (x e : Q) : bool := Qle_bool x e && Qle_bool (- e) x.
Definition entry_ok (e : Q) (c : Q) (i : Z) : bool :=
  Qle_abs (1 - c * (1 + inject_Z i / 128)) e && Qle_abs (1 - c * (1 + inject_Z (i + 1) / 128)) e
  && Qeq_bool c (inject_Z (Qfloor (c * 512)) / 512) && Qle_bool 0 c && Qle_bool c 1.
Definition table_ok (e : Q) (t : list Q) : bool :=
  forallb (fun i => entry_ok e (nth i t 0%Q) (Z.of_nat i)) (seq 0 128).

Lemma index_range : forall v, ~ (v == 0)%Q -> 0 <= table_index v < 128
  /\ (1 + inject_Z (table_index v) / 128 <= mant v)%Q /\ (mant v < 1 + inject_Z (table_index v + 1) / 128)%Q.
Proof.
  intros v N. destruct (mant_range v N) as [M1 M2]. unfold table_index.
  assert (Em : (Qabs v / p2 (qlog2 (Qabs v)) == mant v)%Q).
  { unfold mant. set (k := qlog2 (Qabs v)). pose proof (p2_inv k) as E.
    transitivity (Qabs v * (p2 k * p2 (- k)) / p2 k)%Q; [rewrite E; field; apply p2_nz|field; apply p2_nz]. }
  assert (Ef : ((Qabs v / p2 (qlog2 (Qabs v)) - 1) * 128 == (mant v - 1) * 128)%Q) by (rewrite Em; reflexivity).
  rewrite (Qfloor_comp _ _ Ef). set (w := ((mant v - 1) * 128)%Q). pose proof (Qfloor_le w) as L. pose proof (Qlt_floor w) as U.
  set (i := Qfloor w) in *. clearbody i. unfold w in *. split; [|split].
  - split.
    + assert (inject_Z (-1) < inject_Z i)%Q; [|rewrite <- Zlt_Qlt in H; lia]. rewrite inject_Z_plus in U. change (inject_Z 1) with 1%Q in U. change (inject_Z (-1)) with (-1)%Q. lra.
    + assert (inject_Z i < inject_Z 128)%Q; [|rewrite <- Zlt_Qlt in H; lia]. change (inject_Z 128) with 128%Q. lra.
  - assert (inject_Z i / 128 <= mant v - 1)%Q; [|lra]. apply Qle_shift_div_r; lra.
  - assert (mant v - 1 < inject_Z (i + 1) / 128)%Q; [|lra]. apply Qlt_shift_div_l; lra.
Qed.

Lemma Qle_abs_ok : forall x e, Qle_abs x e = true -> (Qabs x <= e)%Q.
Proof.
  intros x e H. unfold Qle_abs in H. apply andb_true_iff in H. destruct H as [A B]. apply Qle_bool_iff in A, B. apply Qabs_case; intros; lra.
Qed.

Lemma entry_bound : forall e t v, table_ok e t = true -> ~ (v == 0)%Q ->
  let c := nth (Z.to_nat (table_index v)) t 0%Q in
  (Qabs (1 - mant v * c) <= e)%Q /\ (exists k, (c == inject_Z k * p2 (- 9))%Q) /\ (0 <= c <= 1)%Q.
Proof.
  intros e t v Ht N c. destruct (index_range v N) as (R & L & U).
  unfold table_ok in Ht. rewrite forallb_forall in Ht. specialize (Ht (Z.to_nat (table_index v))).
  assert (Hin : In (Z.to_nat (table_index v)) (seq 0 128)) by (apply in_seq; lia).
  specialize (Ht Hin). rewrite Z2Nat.id in Ht by lia. fold c in Ht. set (i := table_index v) in *. clearbody c i.
  unfold entry_ok in Ht. rewrite !andb_true_iff in Ht. destruct Ht as ((((Ht & H2) & Hc) & C0) & C1).
  apply Qle_bool_iff in C0, C1. apply Qeq_bool_iff in Hc. apply Qle_abs_ok in H2.
  apply Qle_abs_ok in Ht. split; [|split].
  - set (a := (1 + inject_Z i / 128)%Q) in *. set (b := (1 + inject_Z (i + 1) / 128)%Q) in *. clearbody a b.
    assert (K1 : (a * c <= mant v * c)%Q) by (apply Qmult_le_compat_r; auto).
    assert (K2 : (mant v * c <= b * c)%Q) by (apply Qmult_le_compat_r; lra).
    set (mc := (mant v * c)%Q) in *. setoid_replace (c * a)%Q with (a * c)%Q in Ht by ring. setoid_replace (c * b)%Q with (b * c)%Q in H2 by ring.
    set (ac := (a * c)%Q) in *. set (bc := (b * c)%Q) in *. clearbody mc ac bc. qabs_lra.
  - exists (Qfloor (c * 512)). exact Hc.
  - split; auto.
Qed.

Lemma seed_eq : forall t v, ~ (v == 0)%Q -> (v * reciprocal_seed t (fun v => v) v == mant v * nth (Z.to_nat (table_index v)) t 0)%Q.
Proof.
  intros t v N. unfold reciprocal_seed. set (c := nth _ t 0%Q). clearbody c. unfold mant. set (w := p2 (- qlog2 (Qabs v))). clearbody w.
  destruct (Qle_bool 0 v) eqn:S.
  - apply Qle_bool_iff in S. rewrite Qabs_pos by auto. ring.
  - apply Qle_false in S. rewrite Qabs_neg by lra. ring.
Qed.
Theorem seed_error : forall e t v, table_ok e t = true -> ~ (v == 0)%Q -> (Qabs (1 - v * reciprocal_seed t (fun v => v) v) <= e)%Q.
Proof. intros e t v Ht N. rewrite seed_eq by auto. apply (entry_bound e t v Ht N). Qed.
Lemma seed_in : forall p conv e t v, 9 <= p -> table_ok e t = true -> ~ (conv v == 0)%Q -> inF (mkF p None) (reciprocal_seed t conv v).
Proof.
  intros p conv e t v Hp Ht N. destruct (entry_bound e t _ Ht N) as (_ & (k & Hk) & B0 & B1). unfold reciprocal_seed.
  set (c := nth _ t 0%Q) in *. clearbody c.
  assert (Kb : Z.abs k <= 2 ^ p).
  { assert (A : Z.abs k <= 2 ^ 9); [|pose proof (Z.pow_le_mono_r 2 9 p); lia].
    rewrite Hk in B0, B1. setoid_replace (p2 (- 9)) with (1 # 512)%Q in B0 by reflexivity. setoid_replace (p2 (- 9)) with (1 # 512)%Q in B1 by reflexivity.
    assert (C1 : (inject_Z 0 <= inject_Z k)%Q) by (change (inject_Z 0) with 0%Q; lra).
    assert (C2 : (inject_Z k <= inject_Z 512)%Q) by (change (inject_Z 512) with 512%Q; lra).
    rewrite <- Zle_Qle in C1, C2. change (2 ^ 9) with 512. lia. }
  exists (if Qle_bool 0 (conv v) then k else - k), (- 9 + - qlog2 (Qabs (conv v))). split; [|split; [|exact I]].
  - rewrite Hk, p2_plus. destruct (Qle_bool 0 (conv v)); [ring|rewrite inject_Z_opp; ring].
  - destruct (Qle_bool 0 (conv v)); cbn [prec]; lia.
Qed.

(* the input is first converted to k digits *)
Theorem seed_conv_error : forall k e t v, 12 <= k -> (0 <= e)%Q -> (e <= 1 # 8)%Q -> table_ok e t = true -> ~ (v == 0)%Q ->
  (Qabs (1 - v * reciprocal_seed t (rne (mkF k None)) v) <= e + 2 * p2 (- k))%Q.
Proof.
  intros k e t v Hk E0 E8 Ht N. set (v' := rne (mkF k None) v).
  pose proof (rel k Hk _ (Hri k Hk) v) as R. fold v' in R. pose proof (DivCore.u_pos k) as Pu. pose proof (DivCore.u_small k Hk) as Su.
  assert (Pv : (0 < Qabs v)%Q) by (apply FpFormatProofs.Qabs_nz; auto).
  assert (Uv : (p2 (- k) * Qabs v <= (1 # 4096) * Qabs v)%Q) by (apply Qmult_le_compat_r; lra).
  assert (N' : ~ (v' == 0)%Q).
  { intros Z0. rewrite Z0 in R. setoid_replace (0 - v)%Q with (- v)%Q in R by ring. rewrite Qabs_opp in R. lra. }
  change (reciprocal_seed t (rne (mkF k None)) v) with (reciprocal_seed t (fun v => v) v').
  pose proof (seed_error e t v' Ht N') as H. set (s := reciprocal_seed t (fun v => v) v') in *. clearbody s.
  set (u := p2 (- k)) in *.
  assert (A : (Qabs ((v' - v) * s) <= u * Qabs (v * s))%Q).
  { rewrite !Qabs_Qmult. rewrite Qmult_assoc. apply Qmult_le_compat_r; [auto|apply Qabs_nonneg]. }
  assert (Ev : (v' * s == v * s + (v' - v) * s)%Q) by ring. rewrite Ev in H.
  set (a := (v * s)%Q) in *. set (b := ((v' - v) * s)%Q) in *. clearbody a b.
  assert (A2 : (u * Qabs a <= (1 # 4096) * Qabs a)%Q) by (apply Qmult_le_compat_r; [lra|apply Qabs_nonneg]).
  assert (A3 : (Qabs a <= 2)%Q).
  { assert (A1 : (Qabs b <= (1 # 4096) * Qabs a)%Q) by lra. clear A R. qabs_lra. }
  assert (A4 : (u * Qabs a <= u * 2)%Q) by (apply mle; lra).
  assert (A5 : (Qabs b <= 2 * u)%Q) by lra. clear A A2 A3 A4. qabs_lra.
Qed.

(* ---- the two tables ---- *)
Theorem generic_table_accuracy : table_ok (265 # 32768) generic_inv_approx_table = true.
Proof. vm_compute. reflexivity. Qed.
Theorem rvv_table_accuracy : table_ok (183 # 32768) rvv_vfrec7_table = true.
Proof. vm_compute. reflexivity. Qed.

Theorem generic_seed_accuracy : forall v, ~ (v == 0)%Q ->
  (Qabs (1 - v * reciprocal_seed generic_inv_approx_table (fun v => v) v) <= 265 # 32768)%Q.
Proof. intros. apply seed_error; [apply generic_table_accuracy|auto]. Qed.
Theorem rvv_seed_accuracy : forall v, ~ (v == 0)%Q ->
  (Qabs (1 - v * reciprocal_seed rvv_vfrec7_table (fun v => v) v) <= 183 # 32768)%Q
  /\ ((183 # 32768) < (1 # 128))%Q.
Proof. intros. split; [apply seed_error; [apply rvv_table_accuracy|auto]|reflexivity]. Qed.

(* ml_div.py:486 takes 2^-7 for the accuracy of the seed: wrong of the generic
   table, for all operands with a significand in an interval *)
Theorem generic_seed_accuracy_refuted : forall v, ~ (v == 0)%Q -> ((8575 # 8192) <= mant v)%Q -> (mant v < (67 # 64))%Q ->
  ((1 # 128) < Qabs (1 - v * reciprocal_seed generic_inv_approx_table (fun v => v) v))%Q.
Proof.
  intros v N L U. rewrite seed_eq by auto. destruct (index_range v N) as (R & A & B).
  assert (I : table_index v = 5).
  { assert (A' : (inject_Z (table_index v) < inject_Z 6)%Q).
    { change (inject_Z 6) with 6%Q. set (x := inject_Z (table_index v)) in *. clearbody x.
      assert (x / 128 < (3 # 64))%Q by lra. apply (Qmult_lt_r _ _ 128) in H; [|reflexivity]. setoid_replace (x / 128 * 128)%Q with x in H by field. lra. }
    assert (B' : (inject_Z 5 < inject_Z (table_index v + 1))%Q).
    { change (inject_Z 5) with 5%Q. set (x := inject_Z (table_index v + 1)) in *. clearbody x.
      assert ((383 # 8192) < x / 128)%Q by lra. apply (Qmult_lt_r _ _ 128) in H; [|reflexivity]. setoid_replace (x / 128 * 128)%Q with x in H by field. lra. }
    rewrite <- Zlt_Qlt in A', B'. lia. }
  rewrite I. set (c := nth (Z.to_nat 5) generic_inv_approx_table 0%Q).
  assert (Ec : (c == 493 # 512)%Q) by (vm_compute; reflexivity). rewrite Ec.
  assert (K : ((8575 # 8192) * (493 # 512) <= mant v * (493 # 512))%Q) by (apply Qmult_le_compat_r; [auto|discriminate]).
  set (m := (mant v * (493 # 512))%Q) in *. clearbody m. rewrite Qabs_neg by lra. lra.
Qed.

(* ---- number of iterations (ml_div.py:426-446) ---- *)
Theorem num_iteration_spec : forall b i, 0 < i <= b ->
  b <= i * 2 ^ num_iteration b i /\ (0 < num_iteration b i -> i * 2 ^ (num_iteration b i - 1) < b).
Proof.
  intros b i H. unfold num_iteration. set (c := (b + i - 1) / i).
  assert (Hc : i * (c - 1) < b <= i * c).
  { unfold c. pose proof (Z.div_mod (b + i - 1) i ltac:(lia)). pose proof (Z.mod_pos_bound (b + i - 1) i ltac:(lia)). nia. }
  assert (C1 : 1 <= c) by nia. destruct (Z.eq_dec c 1) as [->|C]; [split; [|cbn]; [cbn; lia|lia]|].
  pose proof (Z.log2_up_spec c ltac:(lia)) as [L U]. set (n := Z.log2_up c) in *.
  split; [nia|]. intros Hn. replace (n - 1) with (Z.pred n) by lia. nia.
Qed.
Example num_iteration_32 : num_iteration 24 7 = 2. Proof. reflexivity. Qed.
Example num_iteration_64 : num_iteration 53 7 = 3. Proof. reflexivity. Qed.

(* ---- special operands ---- *)
Section Special.
Variables (G : fpfmt) (seed : Q -> Q) (sub : Q -> Q -> Q -> Z -> fpv) (n : nat).
Definition dspecial (d : datum) : Prop := match d with DFin _ => False | _ => True end.
Definition dzero (d : datum) : Prop := match d with DZero _ => True | _ => False end.

(* every case with a special operand follows IEEE-754, except a zero dividend
   with a divisor that is neither zero nor NaN *)
Theorem division_special : forall vx vy, no_num_zero vx -> no_num_zero vy ->
  dspecial (datum_of vx) \/ dspecial (datum_of vy) ->
  ~ dzero (datum_of vx) \/ dzero (datum_of vy) \/ datum_of vy = DNaN ->
  datum_eq (datum_of (division G seed sub n vx vy)) (ieee_div (datum_of vx) (datum_of vy)).
Proof.
  assert (Z : forall q, ~ (q == 0)%Q -> Qeq_bool q 0 = false).
  { intros q N. destruct (Qeq_bool q 0) eqn:E; auto. apply Qeq_bool_iff in E. contradiction. }
  intros vx vy Nx Ny Hs Hz. destruct vx as [x| | | | | |]; destruct vy as [y| | | | | |];
    cbn [no_num_zero] in Nx, Ny; unfold division, is_zero, is_infty, is_plus_zero, is_minus_zero, num_is_zero, is_plus_infty, is_minus_infty, is_nan, sign_bit, datum_of in *;
    rewrite ?(Z _ Nx), ?(Z _ Ny) in *; cbn [andb orb xorb] in *;
    try (destruct (Qle_bool 0 x) eqn:Sx); try (destruct (Qle_bool 0 y) eqn:Sy); cbn [negb xorb ieee_div neg_of dspecial dzero datum_eq] in *; rewrite ?Sx, ?Sy; cbn [negb xorb datum_eq];
    try exact I; try reflexivity; try (exfalso; tauto); try (exfalso; destruct Hz as [Hz|[Hz|Hz]]; [tauto|tauto|discriminate]).
Qed.

(* a zero dividend is returned as it is: its sign is wrong when the divisor is
   negative *)
Theorem division_zero_dividend_refuted : forall vy, no_num_zero vy -> sign_bit vy = true -> vy <> MZero ->
  division G seed sub n PZero vy = PZero /\ division G seed sub n MZero vy = MZero
  /\ ieee_div (datum_of PZero) (datum_of vy) = DZero true /\ ieee_div (datum_of MZero) (datum_of vy) = DZero false.
Proof.
  assert (Z : forall q, ~ (q == 0)%Q -> Qeq_bool q 0 = false).
  { intros q N. destruct (Qeq_bool q 0) eqn:E; auto. apply Qeq_bool_iff in E. contradiction. }
  intros vy Ny S M. destruct vy as [y| | | | | |]; cbn [sign_bit] in S; try discriminate; try congruence.
  - cbn [no_num_zero] in Ny. unfold division, is_zero, is_infty, is_plus_zero, is_minus_zero, num_is_zero, datum_of. rewrite (Z y Ny). cbn. rewrite S. auto.
  - repeat split; reflexivity.
Qed.
Theorem division_numbers : forall x y, ~ (x == 0)%Q -> ~ (y == 0)%Q ->
  division G seed sub n (Num x) (Num y) = numerical G seed sub n x y.
Proof.
  intros x y Nx Ny. unfold division. rewrite (num_nz_zero x Nx), (num_nz_zero y Ny). reflexivity.
Qed.
End Special.

Lemma mul_nonpos : forall d v, (0 <= d)%Q -> (v <= 0)%Q -> (d * v <= 0)%Q.
Proof.
  intros d v H K. setoid_replace (d * v)%Q with (- (d * - v))%Q by ring.
  assert (0 <= d * - v)%Q by (apply Qmult_le_0_compat; lra). lra.
Qed.

(* ---- the divisor with all digits one, in the whole scheme ---- *)
Section OnesG.
Variable G : fpfmt.
Hypothesis Hok : fmt_ok G.
Hypothesis Hs : sollya_ok G.
Notation p := (sprec G).
Notation em := (emin_normal G - (p - 1)).
Notation F := (mkF p None).
Notation u := (p2 (- p)).
Notation ri := (rne F).
Notation rb := (rne (mkF p (Some em))).
Hypothesis Hp : 12 <= p.
Hypothesis Hem : em <= - 3 * p - 4.
Variable seed : Q -> Q.
Variable sub : Q -> Q -> Q -> Z -> fpv.

Lemma emax_big : 2 <= emax G.
Proof. pose proof (emax_emin G Hok). lia. Qed.

Theorem ones_division_refuted : forall n e, (e <= 1 # 8)%Q -> seed_ok G seed e -> ~ (seed (svx G (ones p)) == (1 # 2) + u)%Q ->
  (exists r, division G seed sub n (Num 1) (Num (ones p)) = Num r /\ (r <= 1 # 2)%Q)
  /\ datum_eq (datum_of (fp_result G (1 / ones p))) (DFin ((1 # 2) + u)).
Proof.
  intros n e E8 Hseed Ns. pose proof (DivCore.u_pos p) as Pu. pose proof (DivCore.u_small p Hp) as Su.
  pose proof (emax_emin G Hok) as Ee. pose proof emax_big as Pe. pose proof (pu1 p) as P1.
  set (d := ones p) in *. assert (D : (d == 2 - 2 * u)%Q) by reflexivity.
  pose proof (ones_in p Hp) as Id. fold d in Id.
  assert (Md : mult (0 + 1 - p) d) by (apply in_grid; auto; rewrite Qabs_pos by lra; rewrite p2_0; lra).
  replace (0 + 1 - p) with (1 - p) in Md by lia.
  assert (Rd : representable G d).
  { apply (repr_intro G Hok Hs (1 - p)); auto; [lia|]. rewrite Qabs_pos by lra. replace (p + (1 - p)) with 1 by lia. setoid_replace (p2 1) with 2%Q by reflexivity. lra. }
  assert (R1 : representable G 1).
  { apply (FpFormatProofs.representable_comp G (p2 0)); [apply p2_0|]. apply (p2_repr G Hok Hs). lia. }
  assert (Nd : ~ (d == 0)%Q) by lra. assert (N1 : ~ (1 == 0)%Q) by discriminate.
  set (w := p2 (emin_normal G)) in *. assert (Pw : (0 < w)%Q) by apply p2_pos.
  assert (W1 : (w <= (1 # 4))%Q).
  { unfold w. setoid_replace (1 # 4)%Q with (p2 (- 2)) by reflexivity. apply p2_le. lia. }
  assert (Kd : expo G d = 0).
  { unfold expo, clamp, exp_extract. assert (Ld : qlog2 (Qabs d) = 0).
    { apply qlog2_unique; rewrite Qabs_pos by lra; [rewrite p2_0; lra|]. setoid_replace (p2 (0 + 1)) with 2%Q by reflexivity. lra. }
    rewrite Ld. rewrite Qle_true by (rewrite Qabs_pos by lra; fold w; lra). lia. }
  assert (K1 : expo G 1 = 0).
  { unfold expo, clamp, exp_extract. change (qlog2 (Qabs 1)) with 0. rewrite Qle_true by (change (Qabs 1) with 1%Q; fold w; lra). lia. }
  pose proof (svx_eq G Hok Hs Hp Hem d Rd Nd) as Ed. rewrite Kd in Ed. change (- 0) with 0 in Ed. rewrite p2_0, Qmult_1_r in Ed.
  pose proof (svx_eq G Hok Hs Hp Hem 1%Q R1 N1) as E1. rewrite K1 in E1. change (- 0) with 0 in E1. rewrite p2_0, Qmult_1_r in E1.
  assert (Bd : (Qabs (svx G d) <= 4)%Q) by (rewrite Ed, Qabs_pos by lra; lra).
  assert (Ids : inF F (svx G d)) by (apply (inF_comp F d); [symmetry; auto|auto]).
  assert (Mds : mult (1 - p) (svx G d)) by (apply (mult_comp _ d); [symmetry; auto|auto]).
  assert (Nds : ~ (svx G d == 0)%Q) by (rewrite Ed; auto).
  destruct (Hseed _ Ids Mds Nds Bd) as [Is He]. set (s := seed (svx G d)) in *.
  assert (E0 : (0 <= e)%Q) by (pose proof (Qabs_nonneg (1 - svx G d * s)); lra).
  assert (He2 : (Qabs (1 - svx G d * s) <= e + 2 * u)%Q) by lra.
  destruct (recip_agree p em Hp Hem n (svx G d) s e E0 E8 Mds Bd Is He2) as [Ar Iy].
  pose proof (reciprocal_error p Hp ri (Hri p Hp) n (svx G d) s e E0 E8 He2) as Hy.
  destruct (sq_le n e E0 E8) as [S0 S8].
  set (y := compute_reduced_reciprocal ri s (svx G d) n) in *.
  assert (Ey : (y == compute_reduced_reciprocal ri s d n)%Q) by (apply (recip_comp F ri (Hri p Hp)); [auto|reflexivity]).
  assert (Hq : (q1 G seed n 1 d == snd (compute_reduced_division ri 1 d (compute_reduced_reciprocal ri s d n)))%Q).
  { unfold q1, recp, rn, fmt_of. fold s.
    rewrite (division_comp _ rb (Hrb p em Hp) (svx G 1) (svx G 1) (svx G d) (svx G d) _ y) by (auto; reflexivity).
    rewrite (quotient_agree p em Hp Hem (svx G 1) (svx G d) y); auto.
    - apply (division_comp F ri (Hri p Hp)); auto.
    - apply (mult_comp _ (p2 0)); [rewrite E1; apply p2_0|apply mult_p2; lia].
    - rewrite E1. auto.
    - lra. }
  pose proof (ones_quotient_refuted p Hp n s Is Ns) as Up. fold d in Up. rewrite <- Hq in Up.
  (* lower bound *)
  assert (Lo : (p2 (- 3) <= Qabs (q1 G seed n 1 d))%Q).
  { rewrite Hq. destruct (ones_recip p Hp n s Is Ns) as [Iy2 Ny2]. fold d in Iy2, Ny2.
    set (y2 := compute_reduced_reciprocal ri s d n) in *.
    assert (Q2 : (snd (compute_reduced_division ri 1 d y2) == nr_step ri d y2)%Q).
    { unfold compute_reduced_division, dividend_mult. cbn [snd].
      assert (F0 : (ri (1 * y2) == y2)%Q) by (rewrite (rnd_comp F ri (Hri p Hp) (1 * y2) y2) by ring; apply (rnd_id F ri (Hri p Hp)); auto).
      assert (F1 : (ri (- ri (1 * y2) * d + 1) == nr_error ri d y2)%Q) by (unfold nr_error; apply (rnd_comp F ri (Hri p Hp)); rewrite F0; ring).
      unfold nr_step. apply (rnd_comp F ri (Hri p Hp)). apply Qplus_comp; [apply Qmult_comp|]; auto; reflexivity. }
    rewrite Q2. apply (recip_low d); [rewrite Qabs_pos by lra; lra|].
    assert (Hy2 : (Qabs (1 - d * y2) <= sq n e + 2 * u)%Q) by (rewrite <- Ey, <- Ed; auto).
    destruct (nr_bound p Hp ri (Hri p Hp) d y2 (sq n e) S0 S8 Hy2) as [_ B].
    eapply Qle_trans; [exact B|]. destruct (e_small _ S0 S8). lra. }
  split.
  - rewrite division_numbers by auto. rewrite numerical_unfold. cbv zeta. rewrite K1, Kd.
    pose proof (p2_pos (- 3)) as P3.
    assert (Nq : ~ (q1 G seed n 1 d == 0)%Q). { intros Z0. rewrite Z0 in Lo. change (Qabs 0) with 0%Q in Lo. lra. }
    rewrite (scaling_ok G Hok Hs _ 0 0 Nq) by lia. change (0 - 0) with 0.
    assert (Eq : (q1 G seed n 1 d * p2 0 == q1 G seed n 1 d)%Q) by (transitivity (q1 G seed n 1 d * 1)%Q; [apply Qmult_comp; [reflexivity|apply p2_0]|apply Qmult_1_r]). rewrite (fp_result_comp G _ _ Eq).
    set (v := q1 G seed n 1 d) in *.
    assert (Iv : inF F v) by (unfold v; apply (inF_comp F (snd (compute_reduced_division ri 1 d (compute_reduced_reciprocal ri s d n)))); [symmetry; auto|]; unfold compute_reduced_division, dividend_mult; cbn [snd]; apply (rnd_inF F ri (Hri p Hp))).
    assert (Rb : (rb v == v)%Q).
    { rewrite (rne_agree p em Hp); [apply (rnd_id F ri (Hri p Hp)); auto|]. right. eapply Qle_trans; [|exact Lo]. apply p2_le. lia. }
    assert (Hw3 : (w <= p2 (- 3))%Q) by (unfold w; apply p2_le; lia).
    unfold fp_result. destruct (round_cases G v Nq) as [(A & r & R & Er)|(A & R)]; rewrite R.
    + assert (Er' : (r == v)%Q) by (rewrite Er; auto). rewrite (Qeq_bool_comp _ _ Er').
      destruct (Qeq_bool v 0) eqn:Z0; [apply Qeq_bool_iff in Z0; contradiction|].
      cbn [is_subnormal]. rewrite Qle_true; [|rewrite Er'; fold w; lra]. cbn [negb]. exists r. split; auto. rewrite Er'. auto.
    + (* no overflow: v is at most 1/2 and not far from it *)
      exfalso. rewrite Rb in A.
      assert (Bv : (Qabs v <= 2)%Q).
      { destruct (Qlt_le_dec v 0) as [Sg|Sg]; [|rewrite Qabs_pos by auto; lra].
        (* v is positive: d v is close to one *)
        exfalso. destruct (ones_recip p Hp n s Is Ns) as [Iy2 _]. fold d in Iy2. set (y2 := compute_reduced_reciprocal ri s d n) in *.
        assert (Q2 : (snd (compute_reduced_division ri 1 d y2) == nr_step ri d y2)%Q).
        { unfold compute_reduced_division, dividend_mult. cbn [snd].
          assert (F0 : (ri (1 * y2) == y2)%Q) by (rewrite (rnd_comp F ri (Hri p Hp) (1 * y2) y2) by ring; apply (rnd_id F ri (Hri p Hp)); auto).
          assert (F1 : (ri (- ri (1 * y2) * d + 1) == nr_error ri d y2)%Q) by (unfold nr_error; apply (rnd_comp F ri (Hri p Hp)); rewrite F0; ring).
          unfold nr_step. apply (rnd_comp F ri (Hri p Hp)). apply Qplus_comp; [apply Qmult_comp|]; auto; reflexivity. }
        assert (Hy2 : (Qabs (1 - d * y2) <= sq n e + 2 * u)%Q) by (rewrite <- Ey, <- Ed; auto).
        destruct (nr_bound p Hp ri (Hri p Hp) d y2 (sq n e) S0 S8 Hy2) as [_ B]. destruct (e_small _ S0 S8).
        rewrite <- Q2, <- Hq in B. apply Qabs_Qle_condition in B. destruct B as [B1 B2].
        assert (Dv : (d * v <= 0)%Q) by (apply mul_nonpos; lra).
        set (dv := (d * v)%Q) in *. clearbody dv. lra. }
      pose proof (p2_le 2 (emax G + 1) ltac:(lia)) as L2. setoid_replace (p2 2) with 4%Q in L2 by reflexivity. lra.
  - assert (Ro : (rb (1 / d) == (1 # 2) + u)%Q).
    { assert (B1 : ((1 # 4) <= 1 / d)%Q) by (apply Qle_shift_div_l; lra).
      rewrite (rne_agree p em Hp); [apply (ones_rounded p Hp ri (Hri p Hp))|]. right. rewrite Qabs_pos by lra.
      eapply Qle_trans; [|exact B1]. setoid_replace (1 # 4)%Q with (p2 (- 2)) by reflexivity. apply p2_le. lia. }
    assert (Nv : ~ (1 / d == 0)%Q). { intros Z0. assert (1 / d * d == 1)%Q by (field; auto). rewrite Z0 in H. lra. }
    unfold fp_result. destruct (round_cases G _ Nv) as [(A & r & R & Er)|(A & R)]; rewrite R.
    + rewrite Ro in Er. rewrite (Qeq_bool_comp _ _ Er). destruct (Qeq_bool ((1 # 2) + u) 0) eqn:Z0; [apply Qeq_bool_iff in Z0; lra|].
      cbn [datum_of]. rewrite (Qeq_bool_comp _ _ Er), Z0. exact Er.
    + exfalso. rewrite Ro, Qabs_pos in A by lra. pose proof (p2_le 2 (emax G + 1) ltac:(lia)) as L2. setoid_replace (p2 2) with 4%Q in L2 by reflexivity. lra.
Qed.
End OnesG.

(* ---- instances ---- *)
Definition generic_seed_32 : Q -> Q := reciprocal_seed generic_inv_approx_table (fun v => v).
Definition generic_seed_64 : Q -> Q := reciprocal_seed generic_inv_approx_table (rne (mkF 24 None)).
Definition rvv_seed : Q -> Q := reciprocal_seed rvv_vfrec7_table (fun v => v).

Lemma generic_32_ok : seed_ok ML_Binary32 generic_seed_32 (265 # 32768).
Proof.
  intros d Id Md Nd Bd. split; [|apply generic_seed_accuracy; auto].
  apply (seed_in (sprec ML_Binary32) (fun v => v) (265 # 32768) _ d); [discriminate|apply generic_table_accuracy|auto].
Qed.
Lemma rvv_ok : forall G, 9 <= sprec G -> seed_ok G rvv_seed (183 # 32768).
Proof.
  intros G HG d Id Md Nd Bd. split; [|apply rvv_seed_accuracy; auto].
  apply (seed_in (sprec G) (fun v => v) (183 # 32768) _ d HG rvv_table_accuracy); auto.
Qed.
Definition e64 : Q := ((265 # 32768) + (1 # 8388608))%Q.
Lemma generic_64_ok : seed_ok ML_Binary64 generic_seed_64 e64.
Proof.
  intros d Id Md Nd Bd. split.
  - apply (seed_in (sprec ML_Binary64) (rne (mkF 24 None)) (265 # 32768) _ d); [discriminate|apply generic_table_accuracy|].
    pose proof (rel 24 ltac:(lia) _ (Hri 24 ltac:(lia)) d) as R. intros Z0. rewrite Z0 in R.
    setoid_replace (0 - d)%Q with (- d)%Q in R by ring. rewrite Qabs_opp in R. pose proof (FpFormatProofs.Qabs_nz d Nd).
    pose proof (DivCore.u_small 24 ltac:(lia)) as Su. set (w := p2 (- (24))) in *. clearbody w. set (a := Qabs d) in *. clearbody a.
    assert (w * a <= (1 # 2) * a)%Q by (apply Qmult_le_compat_r; lra). lra.
  - assert (Ee : (e64 == (265 # 32768) + 2 * p2 (- (24)))%Q) by reflexivity. rewrite Ee.
    apply (seed_conv_error 24 (265 # 32768) generic_inv_approx_table d); [lia|discriminate|discriminate|apply generic_table_accuracy|auto].
Qed.

Lemma ok32 : fmt_ok ML_Binary32. Proof. split; cbn; lia. Qed.
Lemma ok64 : fmt_ok ML_Binary64. Proof. split; cbn; lia. Qed.
Lemma em32 : emin_normal ML_Binary32 - (sprec ML_Binary32 - 1) <= - 3 * sprec ML_Binary32 - 4. Proof. discriminate. Qed.
Lemma em64 : emin_normal ML_Binary64 - (sprec ML_Binary64 - 1) <= - 3 * sprec ML_Binary64 - 4. Proof. discriminate. Qed.
Lemma p32 : 12 <= sprec ML_Binary32. Proof. discriminate. Qed.
Lemma p64 : 12 <= sprec ML_Binary64. Proof. discriminate. Qed.

Section Instances.
Variable sub : Q -> Q -> Q -> Z -> fpv.
(* common conditions: finite non-zero operands, exponents at most emax apart,
   quotient not below the smallest normal number *)
Definition operands (G : fpfmt) (x y : Q) : Prop :=
  representable G x /\ representable G y /\ ~ (x == 0)%Q /\ ~ (y == 0)%Q
  /\ expo G x - expo G y <= emax G /\ (p2 (emin_normal G) <= Qabs (x / y))%Q.
Definition ieee_quotient (G : fpfmt) (x y : Q) (r : fpv) : Prop := datum_eq (datum_of r) (datum_of (fp_result G (x / y))).

Theorem binary32_generic_partial : forall x y, operands ML_Binary32 x y -> (mant y < 59 # 32)%Q ->
  ieee_quotient ML_Binary32 x y (division ML_Binary32 generic_seed_32 sub 2 (Num x) (Num y)).
Proof.
  intros x y (Rx & Ry & Nx & Ny & Hk & Hn) Hm. unfold ieee_quotient. rewrite division_numbers by auto.
  apply (numerical_correct_partial ML_Binary32 ok32 eq_refl p32 em32 _ sub _ x y (265 # 32768)%Q (5 # 64)%Q Rx Ry Nx Ny); [| | | | |exact Hk|exact Hn].
  - discriminate.
  - apply generic_32_ok.
  - vm_compute. discriminate.
  - left. discriminate.
  - lra.
Qed.
Theorem binary32_rvv_partial : forall x y, operands ML_Binary32 x y -> (mant y < 59 # 30)%Q ->
  ieee_quotient ML_Binary32 x y (division ML_Binary32 rvv_seed sub 2 (Num x) (Num y)).
Proof.
  intros x y (Rx & Ry & Nx & Ny & Hk & Hn) Hm. unfold ieee_quotient. rewrite division_numbers by auto.
  apply (numerical_correct_partial ML_Binary32 ok32 eq_refl p32 em32 _ sub _ x y (183 # 32768)%Q (1 # 60)%Q Rx Ry Nx Ny); [| | | | |exact Hk|exact Hn].
  - discriminate.
  - apply rvv_ok. cbn. lia.
  - vm_compute. discriminate.
  - left. discriminate.
  - lra.
Qed.
Theorem binary64_generic_partial : forall x y, operands ML_Binary64 x y -> (mant y < 5 # 3)%Q ->
  ieee_quotient ML_Binary64 x y (division ML_Binary64 generic_seed_64 sub 3 (Num x) (Num y)).
Proof.
  intros x y (Rx & Ry & Nx & Ny & Hk & Hn) Hm. unfold ieee_quotient. rewrite division_numbers by auto.
  apply (numerical_correct_partial ML_Binary64 ok64 eq_refl p64 em64 _ sub _ x y e64 (1 # 6)%Q Rx Ry Nx Ny); [| | | | |exact Hk|exact Hn].
  - discriminate.
  - apply generic_64_ok.
  - vm_compute. discriminate.
  - right. reflexivity.
  - lra.
Qed.
Theorem binary64_rvv_partial : forall x y, operands ML_Binary64 x y -> (mant y < 99 # 50)%Q ->
  ieee_quotient ML_Binary64 x y (division ML_Binary64 rvv_seed sub 3 (Num x) (Num y)).
Proof.
  intros x y (Rx & Ry & Nx & Ny & Hk & Hn) Hm. unfold ieee_quotient. rewrite division_numbers by auto.
  apply (numerical_correct_partial ML_Binary64 ok64 eq_refl p64 em64 _ sub _ x y (183 # 32768)%Q (1 # 100)%Q Rx Ry Nx Ny); [| | | | |exact Hk|exact Hn].
  - discriminate.
  - apply rvv_ok. cbn. lia.
  - vm_compute. discriminate.
  - left. discriminate.
  - lra.
Qed.
End Instances.

(* ---- examples ---- *)
Definition nosub (_ _ _ : Q) (_ : Z) : fpv := QNaN.
Definition b32 (n : positive) (d : positive) : Q := rne (mkF 24 None) (Zpos n # d).

Example operands_case : operands ML_Binary32 (b32 1 3) (b32 10 7).
Proof.
  unfold operands. split; [|split; [|split; [|split; [|split]]]].
  - exists 11184811, (-25). split; [vm_compute; reflexivity|split; [vm_compute; split; discriminate|vm_compute; reflexivity]].
  - exists 11983726, (-23). split; [vm_compute; reflexivity|split; [vm_compute; split; discriminate|vm_compute; reflexivity]].
  - discriminate.
  - discriminate.
  - vm_compute. discriminate.
  - vm_compute. discriminate.
Qed.
Example mant_case : (mant (b32 10 7) < 59 # 32)%Q. Proof. reflexivity. Qed.
Example binary32_case : match division ML_Binary32 generic_seed_32 nosub 2 (Num (b32 1 3)) (Num (b32 10 7)) with
  | Num q => Qeq_bool q (rne (fmt_of ML_Binary32) (b32 1 3 / b32 10 7)) | _ => false end = true.
Proof. vm_compute. reflexivity. Qed.
Example binary64_case : match division ML_Binary64 generic_seed_64 nosub 3 (Num (-1)) (Num 3) with
  | Num q => Qeq_bool q (rne (fmt_of ML_Binary64) (-1 # 3)) | _ => false end = true.
Proof. vm_compute. reflexivity. Qed.
Example rvv_case : match division ML_Binary64 rvv_seed nosub 3 (Num 355) (Num 113) with
  | Num q => Qeq_bool q (rne (fmt_of ML_Binary64) (355 # 113)) | _ => false end = true.
Proof. vm_compute. reflexivity. Qed.
(* the seeds of both tables are not the exact answer for the all-ones divisor *)
Example ones_case : Qeq_bool (generic_seed_32 (svx ML_Binary32 (ones 24))) ((1 # 2) + p2 (-24)) = false
  /\ Qeq_bool (rvv_seed (svx ML_Binary64 (ones 53))) ((1 # 2) + p2 (-53)) = false.
Proof. split; vm_compute; reflexivity. Qed.
Example ones_32 : match division ML_Binary32 generic_seed_32 nosub 2 (Num 1) (Num (ones 24)) with
  | Num q => Qeq_bool q (1 # 2) | _ => false end = true.
Proof. vm_compute. reflexivity. Qed.
Example overflow_case : expo ML_Binary32 (p2 64) - expo ML_Binary32 ((3 # 2) * p2 (-64)) = emax ML_Binary32 + 1
  /\ division ML_Binary32 generic_seed_32 nosub 2 (Num (p2 64)) (Num ((3 # 2) * p2 (-64))) = PInf
  /\ (mant (p2 64) < mant ((3 # 2) * p2 (-64)))%Q.
Proof. split; [|split]; vm_compute; reflexivity. Qed.
Example double_rounding_case : Qeq_bool (rne (mkF 24 None) (3 # 2)) (3 # 2) = true
  /\ match division ML_Binary32 generic_seed_32 nosub 2 (Num (((3 # 2) - 2 * p2 (-24)) * p2 (-126))) (Num (3 # 2)) with
     | Num q => Qeq_bool q (p2 (-126)) | _ => false end = true.
Proof. split; vm_compute; reflexivity. Qed.
Example special_case : division ML_Binary32 generic_seed_32 nosub 2 MInf (Num 3) = MInf
  /\ division ML_Binary32 generic_seed_32 nosub 2 (Num (-5)) MZero = PInf
  /\ division ML_Binary32 generic_seed_32 nosub 2 PZero (Num (-5)) = PZero.
Proof. repeat split. Qed.
Example seed_refuted_case : ((8575 # 8192) <= mant (8575 # 8192))%Q /\ (mant (8575 # 8192) < (67 # 64))%Q.
Proof. split; vm_compute; [discriminate|reflexivity]. Qed.

Print Assumptions quotient_correct.
Print Assumptions reduced_division_correct.
Print Assumptions reciprocal_error.
Print Assumptions markstein.
Print Assumptions reduced_correct.
Print Assumptions numerical_correct_partial.
Print Assumptions numerical_overflow_refuted.
Print Assumptions overflow_quotient_finite.
Print Assumptions double_rounding_refuted.
Print Assumptions ones_quotient_refuted.
Print Assumptions ones_division_refuted.
Print Assumptions division_special.
Print Assumptions division_zero_dividend_refuted.
Print Assumptions generic_seed_accuracy.
Print Assumptions generic_seed_accuracy_refuted.
Print Assumptions rvv_seed_accuracy.
Print Assumptions num_iteration_spec.
Print Assumptions binary32_generic_partial.
Print Assumptions binary32_rvv_partial.
Print Assumptions binary64_generic_partial.
Print Assumptions binary64_rvv_partial.
