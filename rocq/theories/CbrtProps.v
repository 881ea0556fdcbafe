(* Properties of the cubic root (C107, C108). *)
From Coq Require Import ZArith QArith Qabs Qround Bool List Lia Reals Qreals Lra.
From Verif Require Import QUtil FpFormatModel FpFormatSpec FpFormatProofs RoundSpec RoundProofs RoundRne RealUtil LogCore LogProofs PowModel.
From Verif Require Import ExpModel ExpRecon ExpProofs Exp2Model Exp2Proofs CbrtModel CbrtSpec CbrtReal CbrtProofs CbrtAcc CbrtTab CbrtSpecial.
Open Scope Z_scope.

Section Props.
Variable G : fpfmt.
Hypothesis HG : cbrt_fmt G.
Variables (tab modt : list Q) (third : Q).
Hypothesis HT : cbrt_tables G tab modt third.
Let F := fmt_of G.
Let p := fsz G + 1.
Let Hok : fmt_ok G. Proof. apply HG. Qed.
Let Hso : sollya_ok G. Proof. apply HG. Qed.
Let Hf : 11 <= fsz G <= 52. Proof. apply HG. Qed.
Let He : emin_normal G <= - 14. Proof. apply HG. Qed.
Let EF : F = mkF p (Some (emin_normal G - fsz G)). Proof. apply EF; auto. Qed.
Let Hp1 : 1 <= prec F. Proof. rewrite EF. cbn [prec]. unfold p. lia. Qed.
Let Hemax : emax G = 1 - emin_normal G. Proof. apply emax_emin; auto. Qed.
Let Hthird : nearestR F third (1 / 3). Proof. apply HT. Qed.
Local Notation U := (Q2R (p2 (- p))).
Local Notation small := (Q2R (p2 (emin_normal G))).
Open Scope R_scope.

(* a normal datum *)
Lemma normal_val : forall code s E M, has_fields G code s E M -> (0 < E < 2 ^ esz G - 1)%Z ->
  exists x, get_value_from_integer_coding G code = Num x
    /\ Q2R x = (if s then -1 else 1) * (Q2R (p2 (E - ieee_bias G)) * (1 + IZR M * Q2R (p2 (- fsz G)))).
Proof.
  intros code s E M HF HE. pose proof (decode_ieee G Hok code s E M HF) as D.
  inversion D as [| | | | | |s' E' M' q HE' Eq|s' M' q]; subst; try lia.
  exists q. split; [reflexivity|]. rewrite (Qeq_eqR _ _ Eq), !Q2R_mult, Q2R_plus, Q2R_mult, Q2R_Z, Q2R_1.
  destruct s; [replace (Q2R (-1)) with (-1) by (unfold Q2R; cbn; lra)|rewrite Q2R_1]; ring.
Qed.
Lemma normal_in : forall code s E M x, has_fields G code s E M -> (0 < E < 2 ^ esz G - 1)%Z -> get_value_from_integer_coding G code = Num x -> inF F x.
Proof.
  intros code s E M x HF HE Hx. destruct (normal_val code s E M HF HE) as (y & Ey & Ry). rewrite Hx in Ey. inversion Ey; subst y.
  destruct HF as (_ & _ & HM).
  set (m := ((if s then -1 else 1) * (2 ^ fsz G + M))%Z).
  assert (Px : (x == inject_Z m * p2 (E - ieee_bias G - fsz G))%Q).
  { apply eqR_Qeq. rewrite Ry, Q2R_mult, Q2R_Z. unfold m. replace (E - ieee_bias G - fsz G)%Z with ((E - ieee_bias G) + - fsz G)%Z by lia. rewrite p2R_plus, mult_IZR, plus_IZR, <- (p2R_Z (fsz G)) by lia.
    assert (K : Q2R (p2 (fsz G)) * Q2R (p2 (- fsz G)) = 1) by (rewrite <- p2R_plus; replace (fsz G + - fsz G)%Z with 0%Z by lia; apply p2R_0).
    replace (IZR (if s then (-1)%Z else 1%Z)) with (if s then -1 else 1) by (destruct s; reflexivity).
    replace ((if s then -1 else 1) * (Q2R (p2 (fsz G)) + IZR M) * (Q2R (p2 (E - ieee_bias G)) * Q2R (p2 (- fsz G))))
      with ((if s then -1 else 1) * (Q2R (p2 (E - ieee_bias G)) * (Q2R (p2 (fsz G)) * Q2R (p2 (- fsz G)) + IZR M * Q2R (p2 (- fsz G))))) by ring.
    rewrite K. reflexivity. }
  apply (inF_comp F (inject_Z m * p2 (E - ieee_bias G - fsz G))); [symmetry; exact Px|]. rewrite EF. exists m, (E - ieee_bias G - fsz G)%Z. split; [reflexivity|].
  cbn [prec exp_ok emin]. split.
  - unfold m, p. rewrite Z.pow_add_r by lia. destruct s; lia.
  - unfold emin_normal, bias, ieee_bias. pose proof (pe_half G Hok). lia.
Qed.

(* the root of a normal number is far from the ends of the range *)
Lemma root_far : forall A c, cube_root A c -> small <= A <= 8 * / small -> 16 * small <= c <= / small.
Proof.
  intros A c [Pc E] HA. destruct (small_facts G HG) as ((S0 & S1) & _ & IS). split.
  - destruct (Rle_lt_dec (1 / 16) c) as [L|L]; [lra|]. assert (c * c <= 1 / 16 * (1 / 16)) by (apply Rmult_le_compat; lra).
    assert (c * c * c <= 1 / 16 * (1 / 16) * c) by (apply Rmult_le_compat_r; lra). lra.
  - apply cube_le_inv; [lra|]. rewrite E. apply Rle_trans with (8 * / small); [lra|].
    assert (16384 * 16384 <= / small * / small) by (apply Rmult_le_compat; lra).
    assert (16384 * 16384 * / small <= / small * / small * / small) by (apply Rmult_le_compat_r; lra). lra.
Qed.

Lemma inv_small : / small = Q2R (p2 (- emin_normal G)).
Proof.
  assert (X : small * Q2R (p2 (- emin_normal G)) = 1) by (rewrite <- p2R_plus; replace (emin_normal G + - emin_normal G)%Z with 0%Z by lia; apply p2R_0).
  pose proof (p2R_pos (emin_normal G)). apply Rmult_eq_reg_l with small; [|lra]. rewrite Rinv_r by lra. lra.
Qed.

(* within 1.53 unit in the last place of the root *)
Theorem cbrt_accurate_sec : forall code E M x c e, has_fields G code false E M -> (0 < E < 2 ^ esz G - 1)%Z ->
  get_value_from_integer_coding G code = Num x -> Q2R (p2 (emin_normal G + 1)) <= Q2R x <= Q2R (p2 (- emin_normal G)) ->
  cube_root (Q2R x) c -> Q2R (p2 e) <= c < Q2R (p2 (e + 1)) ->
  exists r, cbrt G tab modt third code = Num r /\ inF F r /\ Rabs (Q2R r - c) <= 1.53 * Q2R (p2 (e - fsz G)).
Proof.
  intros code E M x c e HF HE Hx Bx Hc Be.
  destruct (small_facts G HG) as ((S0 & S1) & BG & IS).
  rewrite p2R_plus in Bx. replace (Q2R (p2 1)) with 2 in Bx by (unfold Q2R; cbn; lra). rewrite <- inv_small in Bx.
  assert (HA : 2 * small <= Q2R x <= / small) by lra.
  pose proof (root_range G HG (Q2R x) c Hc HA) as [[R1 R2] _].
  destruct (normal_val code false E M HF HE) as (y & Ey & Ry). rewrite Hx in Ey. inversion Ey; subst y. rewrite Rmult_1_l in Ry.
  assert (Px : 0 < Q2R x) by lra.
  assert (Nx : ~ (x == 0)%Q) by (intros Z; apply Qeq_eqR in Z; rewrite Q2R_0 in Z; lra).
  assert (I1 : small <= / Q2R x <= / small) by (split; [rewrite <- (Rinv_inv small); apply Rinv_le_contravar; [lra|lra]|apply Rinv_le_contravar; lra]).
  destruct (div_rep G HG x Nx) as (iv & Riv & Niv); [rewrite Rabs_pos_eq, BG by lra; lra|].
  assert (Hiv : exists d, Rabs d <= U /\ Q2R iv = / Q2R x * (1 + d)) by (apply (nearestR_pert G HG); auto; rewrite Rabs_pos_eq; lra).
  pose proof Hc as Hc'. rewrite Ry in Hc'.
  destruct (seed G HG tab modt third HT code E M false HF c Hc' ltac:(lra)) as (e0 & R0 & B0).
  destruct (eight G HG third (Q2R x) c _ _ Hthird Hc HA Riv Hiv _ _ R0 B0) as (q & w & Rq & Nq & W).
  assert (Ee : (emin_normal G <= e)%Z).
  { destruct (Z_le_gt_dec (emin_normal G) e); auto. exfalso. assert (Q2R (p2 (e + 1)) <= small) by (apply p2R_le; lia). lra. }
  pose proof (last_round G HG x c w q e (normal_in code false E M x HF HE Hx) Hc Be Ee Nq W) as LR. fold p in LR.
  replace (e + 1 - p)%Z with (e - fsz G)%Z in LR by (unfold p; lia).
  assert (Sm : 1.53 * Q2R (p2 (e - fsz G)) < c).
  { assert (Q2R (p2 (e - fsz G)) <= Q2R (p2 (e - 11))) by (apply p2R_le; lia). rewrite (p2R_sub e 11) in H by lia. change (IZR (2 ^ 11)) with 2048 in H. lra. }
  apply Rabs_le_inv in LR. assert (Pq : 0 < Q2R q) by lra.
  unfold cbrt. rewrite Hx. cbn [t_zero]. destruct Rq as (q' & (q'' & Fv & Eq) & Iq & Eq').
  assert (Eqq : Q2R q'' = Q2R q) by (rewrite (Qeq_eqR _ _ Eq); exact Eq').
  destruct (iterate num_iteration (newton G third (f_div G (Num 1) (Num x))) (init_approx G tab modt code)); cbn [fval] in Fv; inversion Fv; subst.
  - exists q''. split; [reflexivity|]. split; [apply (inF_comp F q'); [symmetry; exact Eq|exact Iq]|]. rewrite Eqq. apply Rabs_le. lra.
  - rewrite Q2R_0 in Eqq. lra.
  - rewrite Q2R_0 in Eqq. lra.
Qed.

(* ---- data other than positive normal numbers ---- *)

(* the root of a negative number is positive *)
Theorem cbrt_negative_sec : forall code E M x, has_fields G code true E M -> (0 < E < 2 ^ esz G - 1)%Z ->
  get_value_from_integer_coding G code = Num x ->
  Q2R x < 0 /\ (cbrt G tab modt third code = PInf \/ exists r, cbrt G tab modt third code = Num r /\ 0 < Q2R r).
Proof.
  intros code E M x HF HE Hx. destruct (normal_val code true E M HF HE) as (y & Ey & Ry). rewrite Hx in Ey. inversion Ey; subst y.
  destruct (small_facts G HG) as ((S0 & S1) & BG & IS).
  pose proof (p2R_pos (E - ieee_bias G)) as Pk. pose proof (p2R_pos (- fsz G)) as Pf.
  assert (HM : (0 <= M < 2 ^ fsz G)%Z) by apply HF. pose proof (k_range G HG code E M true HF) as HK.
  set (m := 1 + IZR M * Q2R (p2 (- fsz G))) in *.
  assert (Bm : 1 <= m < 2).
  { assert (0 <= IZR M) by (apply IZR_le; lia). assert (IZR M < Q2R (p2 (fsz G))) by (rewrite p2R_Z by lia; apply IZR_lt; lia).
    assert (K : Q2R (p2 (fsz G)) * Q2R (p2 (- fsz G)) = 1) by (rewrite <- p2R_plus; replace (fsz G + - fsz G)%Z with 0%Z by lia; apply p2R_0).
    assert (IZR M * Q2R (p2 (- fsz G)) < Q2R (p2 (fsz G)) * Q2R (p2 (- fsz G))) by (apply Rmult_lt_compat_r; lra).
    assert (0 <= IZR M * Q2R (p2 (- fsz G))) by (apply Rmult_le_pos; lra). unfold m. lra. }
  set (A := Q2R (p2 (E - ieee_bias G)) * m) in *.
  assert (Bk : small <= Q2R (p2 (E - ieee_bias G)) <= 2 * / small).
  { rewrite <- BG. pose proof (emax_eq G Hok) as EM. pose proof (pe_half G Hok).
    split; apply p2R_le; unfold emin_normal, bias, ieee_bias in *; lia. }
  assert (BA : small <= A <= 8 * / small).
  { unfold A. split; [rewrite <- (Rmult_1_r small); apply Rmult_le_compat; lra|].
    apply Rle_trans with (2 * / small * 2); [apply Rmult_le_compat; lra|lra]. }
  assert (Nx : Q2R x < 0) by (rewrite Ry; lra). split; [exact Nx|].
  unfold cbrt. rewrite Hx. cbn [t_zero].
  destruct (root_exists A ltac:(lra)) as (c & Hc). pose proof (root_far A c Hc BA) as Rc.
  destruct (seed G HG tab modt third HT code E M true HF c Hc Rc) as (e0 & R0 & B0). apply Rabs_le_inv in B0.
  (* the inverse is a negative number *)
  assert (Inv : exists w, f_div G (Num 1) (Num x) = Num w /\ (w < 0)%Q).
  { assert (Nx0 : ~ (x == 0)%Q) by (intros Z; apply Qeq_eqR in Z; rewrite Q2R_0 in Z; lra).
    assert (Ab : Rabs (Q2R x) = A) by (rewrite Ry, Rabs_left by lra; lra).
    assert (IA : small / 8 <= / A <= / small).
    { split; [|apply Rinv_le_contravar; lra]. replace (small / 8) with (/ (8 * / small)) by (field; lra). apply Rinv_le_contravar; lra. }
    destruct (div_rep G HG x Nx0) as (iv & Riv & Niv); [rewrite Ab, BG; lra|].
    assert (L : Q2R iv <= - Q2R (p2 (emin_normal G - 3))).
    { destruct Niv as [_ N]. assert (I3 : inF F (- p2 (emin_normal G - 3))) by (apply (inF_opp F Hp1); apply (inF_p2 G HG); lia).
      pose proof (N _ I3) as N3. rewrite Q2R_opp in N3. rewrite p2R_sub in * by lia. change (IZR (2 ^ 3)) with 8 in *.
      assert (Ex : / Q2R x = - / A) by (rewrite Ry, <- Rinv_opp; f_equal; ring). rewrite Ex in N3.
      rewrite (Rabs_pos_eq (- (small / 8) - - / A)) in N3 by lra. apply Rabs_le_inv in N3. lra. }
    pose proof (p2R_pos (emin_normal G - 3)) as P3. destruct Riv as (q' & (q'' & Fv & Eq) & _ & Eq').
    assert (Eqq : Q2R q'' = Q2R iv) by (rewrite (Qeq_eqR _ _ Eq); exact Eq').
    destruct (f_div G (Num 1) (Num x)) as [w| | | | | |]; cbn [fval] in Fv; inversion Fv; subst; try (rewrite Q2R_0 in Eqq; lra).
    exists q''. split; [reflexivity|]. apply Rlt_Qlt. rewrite Q2R_0. lra. }
  destruct Inv as (w & -> & Hw).
  assert (I0 : inF F (p2 (emin_normal G))) by (apply (inF_p2 G HG); lia).
  assert (E4 : (p2 (emin_normal G + 2) == 4 * p2 (emin_normal G))%Q) by (rewrite p2_plus; change (p2 2) with 4%Q; ring).
  assert (I4 : inF F (4 * p2 (emin_normal G))) by (apply (inF_comp F (p2 (emin_normal G + 2))); [exact E4|apply (inF_p2 G HG); lia]).
  assert (A0 : atleast (4 * p2 (emin_normal G)) (init_approx G tab modt code)).
  { destruct R0 as (q' & (q'' & Fv & Eq) & _ & Eq'). assert (Eqq : Q2R q'' = c * (1 + e0)) by (rewrite (Qeq_eqR _ _ Eq); exact Eq').
    assert (Lo : c * 0.5 <= c * (1 + e0)) by (apply Rmult_le_compat_l; lra).
    destruct (init_approx G tab modt code); cbn [fval] in Fv; inversion Fv; subst; try (rewrite Q2R_0 in Eqq; lra).
    right. exists q''. split; [reflexivity|]. apply Rle_Qle. rewrite Q2R_mult. replace (Q2R 4) with 4 by (unfold Q2R; cbn; lra). lra. }
  destruct (iterate_neg G HG third Hthird num_iteration (p2 (emin_normal G)) w _ I0 I4 (p2_pos _) Hw A0) as [->|(r & -> & Hr)]; [left; reflexivity|].
  right. exists r. split; [reflexivity|]. apply Qle_Rle in Hr. rewrite Q2R_mult in Hr. replace (Q2R 4) with 4 in Hr by (unfold Q2R; cbn; lra). lra.
Qed.

(* the inverse of a number up to 2^(emin-2) is infinite: so is the result, with the other sign *)
Theorem cbrt_tiny_sec : forall code s M, has_fields G code s 0 M -> (0 < M <= 2 ^ (fsz G - 2))%Z ->
  cbrt G tab modt third code = if s then PInf else MInf.
Proof.
  intros code s M HF HM. pose proof (decode_ieee G Hok code s 0 M HF) as D. destruct (small_facts G HG) as ((S0 & S1) & BG & IS).
  assert (B1 : (1 - ieee_bias G = emin_normal G)%Z) by (unfold emin_normal, bias, ieee_bias; lia).
  assert (Pe : (2 <= 2 ^ esz G)%Z) by (destruct Hok as [E2 _]; pose proof (Z.pow_le_mono_r 2 1 (esz G) ltac:(lia) ltac:(lia)); lia).
  assert (X : exists q, Num q = get_value_from_integer_coding G code /\ (q == (if s then -1 else 1) * p2 (1 - ieee_bias G) * (inject_Z M * p2 (- fsz G)))%Q).
  { inversion D as [| | | | | |s' E' M' q HE' Eq|s' M' q HM' Eq]; subst; try lia. exists q. auto. }
  destruct X as (q & Edv & Eq). clear D.
  (* the argument *)
  rewrite B1 in Eq. assert (Rq : Q2R q = (if s then -1 else 1) * (small * (IZR M * Q2R (p2 (- fsz G))))).
  { rewrite (Qeq_eqR _ _ Eq), !Q2R_mult, Q2R_Z. destruct s; [replace (Q2R (-1)) with (-1) by (unfold Q2R; cbn; lra)|rewrite Q2R_1]; ring. }
  set (A := small * (IZR M * Q2R (p2 (- fsz G)))) in *.
  assert (BA : 0 < A <= small * / 4).
  { assert (M0 : 0 < IZR M) by (apply IZR_lt; lia). pose proof (p2R_pos (- fsz G)) as Pf. unfold A. split; [apply Rmult_lt_0_compat; [lra|apply Rmult_lt_0_compat; lra]|].
    apply Rmult_le_compat_l; [lra|]. assert (M1 : IZR M <= Q2R (p2 (fsz G - 2))) by (rewrite p2R_Z by lia; apply IZR_le; lia).
    apply Rle_trans with (Q2R (p2 (fsz G - 2)) * Q2R (p2 (- fsz G))); [apply Rmult_le_compat_r; lra|]. rewrite <- p2R_plus.
    replace (fsz G - 2 + - fsz G)%Z with (- (2))%Z by lia. rewrite p2R_neg by lia. change (IZR (2 ^ 2)) with 4. lra. }
  (* its inverse *)
  assert (Inv : f_div G (Num 1) (Num q) = if s then MInf else PInf).
  { unfold f_div. cbn [t_nan t_inf t_pinf t_minf t_zero orb f_q].
    assert (Ng : f_neg (Num q) = s).
    { destruct s; [apply f_neg_lt; apply Rlt_Qlt; rewrite Rq, Q2R_0; lra|apply f_neg_ge; apply Rle_Qle; rewrite Rq, Q2R_0; lra]. }
    rewrite Ng. change (f_neg (Num 1)) with false. cbn [xorb].
    assert (Nq : ~ (q == 0)%Q) by (intros Z; apply Qeq_eqR in Z; rewrite Q2R_0 in Z; destruct s; lra).
    destruct (sollya_round_cases G (1 / q)) as [(r & _ & _ & C)|[S C]]; [exfalso|rewrite S; destruct s; reflexivity].
    apply Qlt_Rlt in C. rewrite Q2R_abs in C.
    assert (T : Q2R (p2 (emax G + 1)) <= Rabs (Q2R (1 / q))).
    { rewrite Q2R_div, Q2R_1 by auto. unfold Rdiv. rewrite Rmult_1_l, Rabs_inv. replace (Rabs (Q2R q)) with A by (rewrite Rq; destruct s; [rewrite Rabs_left|rewrite Rabs_pos_eq]; lra).
      rewrite p2R_plus, BG. replace (Q2R (p2 1)) with 2 by (unfold Q2R; cbn; lra). replace (2 * / small * 2) with (/ (small * / 4)) by (field; lra). apply Rinv_le_contravar; lra. }
    assert (T2 : Q2R (p2 (emax G + 1)) <= Rabs (Q2R (rne (fmt_of G) (1 / q)))).
    { pose proof (rnd_nearestR G HG (1 / q)) as N. set (y := Q2R (1 / q)) in *. set (z := Q2R (rne (fmt_of G) (1 / q))) in *.
      assert (I1 : inF F (p2 (emax G + 1))) by (apply (inF_p2 G HG); lia). pose proof (inF_opp F Hp1 _ I1) as I2.
      destruct N as [_ N]. pose proof (N _ I1) as N1. pose proof (N _ I2) as N2. rewrite Q2R_opp in N2. fold z in N1, N2.
      set (B := Q2R (p2 (emax G + 1))) in *. destruct (Rle_lt_dec 0 y) as [Y|Y].
      - rewrite (Rabs_pos_eq y) in T by lra. rewrite (Rabs_left1 (B - y)) in N1 by lra. apply Rabs_le_inv in N1. pose proof (Rle_abs z). lra.
      - rewrite (Rabs_left y) in T by lra. rewrite (Rabs_pos_eq (- B - y)) in N2 by lra. apply Rabs_le_inv in N2. pose proof (Rle_abs (- z)) as Z. rewrite Rabs_Ropp in Z. lra. }
    lra. }
  unfold cbrt. rewrite <- Edv. cbn [t_zero]. rewrite Inv.
  (* the seed *)
  pose proof (k_range G HG code 0 M s HF) as HK. rewrite (seed_fields G HG tab modt code 0 M s HF).
  destruct (index_bits G code s 0 M Hok ltac:(lia) HF) as [_ Bi]. set (i := table_index G code) in *.
  assert (I0 : 0 <= IZR i <= 63) by (split; apply IZR_le; lia).
  assert (Ek : Q2R (p2 (0 - ieee_bias G)) = small / 2).
  { replace (0 - ieee_bias G)%Z with (emin_normal G - 1)%Z by lia. rewrite p2R_sub by lia. reflexivity. }
  destruct (root_exists (Q2R (p2 (0 - ieee_bias G)) * (1 + IZR i / 64))) as (c & Hc). { rewrite Ek. apply Rmult_lt_0_compat; lra. }
  pose proof Hc as [Pc Ec]. rewrite Ek in Ec.
  assert (C3 : small / 2 <= c * c * c <= small).
  { rewrite Ec. split; [rewrite <- (Rmult_1_r (small / 2)) at 1; apply Rmult_le_compat_l; lra|].
    apply Rle_trans with (small / 2 * 2); [apply Rmult_le_compat_l; lra|lra]. }
  assert (C1 : c <= 1 / 16) by (apply cube_le_inv; lra).
  assert (C2 : c * c * c <= c * c * (1 / 16)) by (apply Rmult_le_compat_l; [apply Rmult_le_pos|]; lra).
  assert (CC : c * c <= 1 / 16 * c) by (apply Rmult_le_compat_r; lra).
  destruct (seed_core G HG tab modt third HT (0 - ieee_bias G) i c HK ltac:(lia) Hc ltac:(lra)) as (e0 & R0 & B0). apply Rabs_le_inv in B0.
  (* its cube is a number *)
  set (a := c * (1 + e0)) in *.
  assert (Ba : 0.999 * c <= a <= 1.001 * c) by (unfold a; rewrite (Rmult_comm c); split; apply Rmult_le_compat_r; lra).
  assert (Baa : 0.99 * (c * c) <= a * a <= 1.01 * (c * c)).
  { pose proof (mul_in a a (0.999 * c) (1.001 * c) (0.999 * c) (1.001 * c) ltac:(lra) ltac:(lra) ltac:(lra) ltac:(lra)) as W.
    assert (0 < c * c) by (apply Rmult_lt_0_compat; lra). lra. }
  destruct (mul_rep G HG _ _ _ _ R0 R0) as (q1 & Rq1 & Nq1); [rewrite BG, Rabs_pos_eq; lra|].
  destruct (nearestR_pert G HG _ _ Nq1) as (d1 & D1 & E1); [rewrite Rabs_pos_eq; lra|]. fold p in D1. apply Rabs_le_inv in D1. pose proof (U_b G HG) as UB. fold p in UB.
  assert (Bt : 0.9 * (c * c * c) <= a * Q2R q1 <= 1.1 * (c * c * c)).
  { assert (K : 0 < c * c) by (apply Rmult_lt_0_compat; lra). assert (K3 : 0 < c * c * c) by (apply Rmult_lt_0_compat; lra).
    pose proof (mul_in (a * a) (1 + d1) (0.99 * (c * c)) (1.01 * (c * c)) 0.99 1.01 ltac:(lra) ltac:(lra) ltac:(lra) ltac:(lra)) as W1. rewrite <- E1 in W1.
    pose proof (mul_in a (Q2R q1) (0.999 * c) (1.001 * c) (0.99 * (c * c) * 0.99) (1.01 * (c * c) * 1.01) ltac:(lra) ltac:(lra) ltac:(lra) ltac:(lra)) as W2.
    replace (0.999 * c * (0.99 * (c * c) * 0.99)) with (0.9791199 * (c * c * c)) in W2 by lra.
    replace (1.001 * c * (1.01 * (c * c) * 1.01)) with (1.0211201 * (c * c * c)) in W2 by lra. lra. }
  destruct (mul_rep G HG _ _ _ _ R0 Rq1) as (q2 & Rq2 & [_ Nq2]); [rewrite BG, Rabs_pos_eq; lra|].
  assert (P2 : 0 < Q2R q2).
  { assert (I2 : inF F (p2 (emin_normal G - 2))) by (apply (inF_p2 G HG); lia). pose proof (Nq2 _ I2) as N. pose proof (p2R_pos (emin_normal G - 2)) as PP.
    rewrite p2R_sub in * by lia. change (IZR (2 ^ 2)) with 4 in *. rewrite (Rabs_left1 (small / 4 - a * Q2R q1)) in N by lra. apply Rabs_le_inv in N. lra. }
  set (v := seed_of G tab modt (0 - ieee_bias G) i) in *.
  assert (Ev : exists q0, v = Num q0 /\ Q2R q0 = a).
  { destruct R0 as (q' & (q'' & Fv & Eq0) & _ & Eq'). assert (Eqq : Q2R q'' = a) by (rewrite (Qeq_eqR _ _ Eq0); exact Eq').
    destruct v; cbn [fval] in Fv; inversion Fv; subst; try (rewrite Q2R_0 in Eqq; lra). exists q''. auto. }
  destruct Ev as (q0 & Ev & Eq0). rewrite Ev in *.
  assert (Et : exists t, f_mul G (Num q0) (f_mul G (Num q0) (Num q0)) = Num t /\ (0 < t)%Q).
  { destruct Rq2 as (q' & (q'' & Fv & Eq2) & _ & Eq'). assert (Eqq : Q2R q'' = Q2R q2) by (rewrite (Qeq_eqR _ _ Eq2); exact Eq').
    destruct (f_mul G (Num q0) (f_mul G (Num q0) (Num q0))); cbn [fval] in Fv; inversion Fv; subst; try (rewrite Q2R_0 in Eqq; lra).
    exists q''. split; [reflexivity|]. apply Rlt_Qlt. rewrite Q2R_0. lra. }
  destruct Et as (t & Et & Pt).
  assert (I1 : inF F (p2 (emin_normal G))) by (apply (inF_p2 G HG); lia).
  assert (L4 : (4 * p2 (emin_normal G) <= q0)%Q) by (apply Rle_Qle; rewrite Q2R_mult; replace (Q2R 4) with 4 by (unfold Q2R; cbn; lra); lra).
  pose proof (newton_inf G HG third Hthird _ q0 t s I1 (p2_pos _) L4 Et Pt) as N1.
  unfold num_iteration. cbn [iterate]. rewrite N1. destruct s.
  - rewrite !(newton_minf_pinf G HG third Hthird). reflexivity.
  - rewrite !(newton_pinf_minf G HG third Hthird). reflexivity.
Qed.

(* a finite datum times zero *)
Lemma diff_zero : forall t (neg : bool), fin t (f_q t) -> exists d, f_fma G (f_opp t) (if neg then MZero else PZero) (Num 1) = Num d /\ Q2R d = 1.
Proof.
  intros t neg (q & Ft & _).
  assert (X : forall s b, (s == 1)%Q -> exists d, (if Qeq_bool s 0 then f_zero b else datum (sollya_round G s) (negb (Qle_bool 0 s))) = Num d /\ Q2R d = 1).
  { intros s b Es. destruct (Qeq_bool s 0) eqn:Z; [apply Qeq_bool_iff in Z; rewrite Es in Z; discriminate|].
    assert (Rn : (rne F s == 1)%Q) by (rewrite (rnd_comp F (rne F) (rne_nearest F Hp1) s 1 Es); apply (rnd_id F (rne F) (rne_nearest F Hp1)); apply (inF_p2 G HG 0); lia).
    destruct (sollya_round_cases G s) as [(r & S & R & _)|[S C]]; rewrite S.
    - assert (Er : (r == 1)%Q) by (rewrite R; exact Rn). unfold datum. destruct (Qeq_bool r 0) eqn:Z2; [apply Qeq_bool_iff in Z2; rewrite Er in Z2; discriminate|].
      exists r. split; [reflexivity|]. rewrite (Qeq_eqR _ _ Er). apply Q2R_1.
    - exfalso. apply Qle_Rle in C. rewrite Q2R_abs in C. change (fmt_of G) with F in C. rewrite (Qeq_eqR _ _ Rn), Q2R_1, Rabs_R1 in C.
      assert (L : Q2R (p2 1) <= Q2R (p2 (emax G + 1))) by (apply p2R_le; lia). replace (Q2R (p2 1)) with 2 in L by (unfold Q2R; cbn; lra). lra. }
  unfold f_fma. destruct t; cbn [fval] in Ft; inversion Ft; subst; destruct neg; cbn [f_opp t_nan t_inf t_pinf t_minf t_zero orb andb f_q]; apply X; ring.
Qed.

(* the root of an infinity is not a number *)
Theorem cbrt_inf_sec : forall code s, has_fields G code s (2 ^ esz G - 1) 0 ->
  get_value_from_integer_coding G code = (if s then MInf else PInf) /\ cbrt G tab modt third code = QNaN.
Proof.
  intros code s HF. pose proof (decode_ieee G Hok code s _ 0 HF) as D. destruct (small_facts G HG) as ((S0 & S1) & BG & IS).
  assert (Pe : (2 <= 2 ^ esz G)%Z) by (destruct Hok as [E2 _]; pose proof (Z.pow_le_mono_r 2 1 (esz G) ltac:(lia) ltac:(lia)); lia).
  assert (Pf : (0 < 2 ^ (fsz G - 1))%Z) by (apply Z.pow_pos_nonneg; lia).
  assert (Ex : get_value_from_integer_coding G code = if s then MInf else PInf) by (inversion D; subst; try lia; reflexivity).
  split; [exact Ex|]. unfold cbrt. rewrite Ex.
  assert (Tz : t_zero (if s then MInf else PInf) = false) by (destruct s; reflexivity). rewrite Tz.
  assert (Inv : f_div G (Num 1) (if s then MInf else PInf) = if s then MZero else PZero) by (destruct s; reflexivity). rewrite Inv.
  (* the seed *)
  pose proof (k_range G HG code _ 0 s HF) as HK. rewrite (seed_fields G HG tab modt code _ 0 s HF).
  destruct (index_bits G code s _ 0 Hok ltac:(lia) HF) as [Ei _]. rewrite Ei, Z.div_0_l by (apply Z.pow_nonzero; lia).
  assert (Ek : (2 ^ esz G - 1 - ieee_bias G = emax G + 1)%Z) by (rewrite emax_eq by auto; unfold ieee_bias; pose proof (pe_half G Hok); lia). rewrite Ek in *.
  assert (Et : Q2R (p2 (emax G + 1)) = 4 * / small) by (rewrite p2R_plus, BG; replace (Q2R (p2 1)) with 2 by (unfold Q2R; cbn; lra); lra).
  destruct (root_exists (Q2R (p2 (emax G + 1)) * (1 + 0 / 64))) as (c & Hc). { rewrite Et. lra. }
  assert (Rc : 16 * small <= c <= / small) by (apply (root_far _ c Hc); rewrite Et; lra).
  pose proof Hc as [Pc Ec]. rewrite Et in Ec.
  assert (C1 : 16 <= c) by (apply cube_le_inv; lra).
  destruct (seed_core G HG tab modt third HT (emax G + 1) 0 c HK ltac:(lia) Hc ltac:(lra)) as (e0 & R0 & B0). apply Rabs_le_inv in B0.
  set (v := seed_of G tab modt (emax G + 1) 0) in *. set (a := c * (1 + e0)) in *.
  assert (Ba : 0.999 * c <= a <= 1.001 * c) by (unfold a; rewrite (Rmult_comm c); split; apply Rmult_le_compat_r; lra).
  assert (Q : forall n, iterate n (newton G third (if s then MZero else PZero)) QNaN = QNaN) by (intros n; apply iterate_fix; apply newton_qnan).
  assert (O : forall u, f_mul G u (f_mul G u u) = PInf -> newton G third (if s then MZero else PZero) u = QNaN).
  { intros u Eu. unfold newton. rewrite Eu. replace (f_fma G (f_opp PInf) (if s then MZero else PZero) (Num 1)) with QNaN by (destruct s; reflexivity). apply fma_qnan2. }
  assert (Ev : exists q0, v = Num q0 /\ Q2R q0 = a).
  { destruct R0 as (q' & (q'' & Fv & Eq0) & _ & Eq'). assert (Eqq : Q2R q'' = a) by (rewrite (Qeq_eqR _ _ Eq0); exact Eq').
    destruct v; cbn [fval] in Fv; inversion Fv; subst; try (rewrite Q2R_0 in Eqq; lra). exists q''. auto. }
  destruct Ev as (q0 & Ev & Eq0). rewrite Ev in *. clear v Ev.
  pose proof (U_b G HG) as UB. fold p in UB.
  assert (Pq0 : (0 < q0)%Q) by (apply Rlt_Qlt; rewrite Q2R_0, Eq0; lra).
  (* its cube *)
  assert (K2 : 16 * c <= c * c) by (apply Rmult_le_compat_r; lra).
  assert (K3 : 16 * (c * c) <= c * (c * c)) by (apply Rmult_le_compat_r; lra).
  assert (Ec' : c * (c * c) = 4 * / small) by lra.
  assert (I8 : forall f u, iterate num_iteration f u = iterate 6 f (f (f u))) by reflexivity. rewrite I8. clear I8.
  assert (NN : nonneg (f_mul G (Num q0) (f_mul G (Num q0) (Num q0)))) by (apply (mul_nonneg G HG); auto; apply (mul_nonneg G HG); auto; right; right; exists q0; auto).
  assert (Fi : f_mul G (Num q0) (f_mul G (Num q0) (Num q0)) = PInf \/ fin (f_mul G (Num q0) (f_mul G (Num q0) (Num q0))) (f_q (f_mul G (Num q0) (f_mul G (Num q0) (Num q0))))).
  { destruct NN as [->|[->|(t & -> & _)]]; [left; reflexivity|right; exists 0%Q; split; reflexivity|right; exists t; split; reflexivity]. }
  destruct Fi as [Fi|Fi]; [rewrite (O _ Fi), newton_qnan; apply Q|].
  (* the first iteration multiplies by 4/3, the cube then overflows *)
  assert (N2 : exists q1, newton G third (if s then MZero else PZero) (Num q0) = Num q1 /\ 1.3 * c <= Q2R q1 <= 1.4 * c).
  { unfold newton. destruct (diff_zero _ s Fi) as (d & Ed & Rd). rewrite Ed.
    destruct (third_pert G HG third Hthird) as (d1 & D1 & E1). fold p in D1. apply Rabs_le_inv in D1.
    pose proof (rep_num G third (proj1 Hthird)) as Rt.
    assert (B1 : 0.33 * c <= a * Q2R third <= 0.336 * c).
    { pose proof (mul_in a (Q2R third) (0.999 * c) (1.001 * c) 0.333 0.334 ltac:(lra) ltac:(lra) ltac:(lra) ltac:(rewrite E1; lra)). lra. }
    destruct (mul_rep G HG _ _ _ _ R0 Rt) as (q1 & Rq1 & Nq1); [rewrite BG, Rabs_pos_eq; lra|].
    destruct (nearestR_pert G HG _ _ Nq1) as (d2 & D2 & E2); [rewrite Rabs_pos_eq; lra|]. fold p in D2. apply Rabs_le_inv in D2.
    assert (B2 : 0.32 * c <= Q2R q1 <= 0.34 * c).
    { rewrite E2. pose proof (mul_in (a * Q2R third) (1 + d2) (0.33 * c) (0.336 * c) 0.999 1.001 ltac:(lra) ltac:(lra) ltac:(lra) ltac:(lra)). lra. }
    assert (Rdd : rep G (Num d) 1).
    { exists d. split; [exists d; split; reflexivity|]. split; [|exact Rd]. apply (inF_comp F 1); [|apply (inF_p2 G HG 0); lia]. apply eqR_Qeq. rewrite Rd. apply Q2R_1. }
    destruct (fma_rep G HG _ _ _ _ _ _ Rq1 Rdd R0) as (q2 & Rq2 & Nq2); [rewrite BG, Rabs_pos_eq; lra|].
    destruct (nearestR_pert G HG _ _ Nq2) as (d3 & D3 & E3); [rewrite Rabs_pos_eq; lra|]. fold p in D3. apply Rabs_le_inv in D3.
    assert (B3 : 1.3 * c <= Q2R q2 <= 1.4 * c).
    { rewrite E3. pose proof (mul_in (Q2R q1 * 1 + a) (1 + d3) (1.319 * c) (1.341 * c) 0.999 1.001 ltac:(lra) ltac:(lra) ltac:(lra) ltac:(lra)). lra. }
    destruct Rq2 as (q' & (q'' & Fv & Eq2) & _ & Eq'). assert (Eqq : Q2R q'' = Q2R q2) by (rewrite (Qeq_eqR _ _ Eq2); exact Eq').
    destruct (f_fma G (f_mul G (Num q0) (Num third)) (Num d) (Num q0)); cbn [fval] in Fv; inversion Fv; subst; try (rewrite Q2R_0 in Eqq; lra).
    exists q''. split; [reflexivity|]. rewrite Eqq. exact B3. }
  destruct N2 as (q1 & -> & B1). rewrite O; [apply Q|].
  assert (Rq1 : Rabs (Q2R q1 * Q2R q1) <= Q2R (p2 (emax G)) /\ 1.69 * (c * c) <= Q2R q1 * Q2R q1).
  { pose proof (mul_in (Q2R q1) (Q2R q1) (1.3 * c) (1.4 * c) (1.3 * c) (1.4 * c) ltac:(lra) ltac:(lra) B1 B1). rewrite BG, Rabs_pos_eq by lra. lra. }
  destruct Rq1 as [Rq1 Lq1].
  assert (M : exists y, f_mul G (Num q1) (Num q1) = Num y /\ 1.6 * (c * c) <= Q2R y).
  { assert (P1 : (0 <= q1)%Q) by (apply Rle_Qle; rewrite Q2R_0; lra). unfold f_mul. rewrite !f_neg_ge by auto. cbn [xorb].
    destruct (sollya_round_cases G (q1 * q1)) as [(r & S & R & _)|[S C]]; rewrite S.
    - destruct (nearestR_pert G HG _ _ (rnd_nearestR G HG (q1 * q1))) as (d & D1 & E1); [rewrite Q2R_mult, Rabs_pos_eq; lra|]. fold p in D1. apply Rabs_le_inv in D1.
      rewrite Q2R_mult in E1. rewrite <- (Qeq_eqR _ _ R) in E1.
      assert (1.6 * (c * c) <= Q2R r).
      { rewrite E1. assert (Q2R q1 * Q2R q1 * 0.99 <= Q2R q1 * Q2R q1 * (1 + d)) by (apply Rmult_le_compat_l; lra). lra. }
      unfold datum. destruct (Qeq_bool r 0) eqn:Z; [exfalso; apply Qeq_bool_iff, Qeq_eqR in Z; rewrite Q2R_0 in Z; lra|]. exists r. auto.
    - exfalso. apply (Qlt_not_le _ _ (in_range G HG (q1 * q1) ltac:(rewrite Q2R_mult; exact Rq1))). exact C. }
  destruct M as (y & -> & By). apply (mul_over G HG); [apply Rle_Qle; rewrite Q2R_0; lra|apply Rle_Qle; rewrite Q2R_0; lra|].
  apply Rle_Qle. rewrite Et, Q2R_mult.
  apply Rle_trans with (1.3 * c * (1.6 * (c * c))); [lra|]. apply Rmult_le_compat; lra.
Qed.
End Props.

(* ---- C107: accuracy ---- *)

(* positive normal arguments whose inverse is a normal number *)
Theorem cbrt_accurate : forall G tab modt third code E M x c e, cbrt_fmt G -> cbrt_tables G tab modt third ->
  has_fields G code false E M -> 0 < E < 2 ^ esz G - 1 -> get_value_from_integer_coding G code = Num x ->
  (Q2R (p2 (emin_normal G + 1)) <= Q2R x <= Q2R (p2 (- emin_normal G)))%R ->
  cube_root (Q2R x) c -> (Q2R (p2 e) <= c < Q2R (p2 (e + 1)))%R ->
  exists r, cbrt G tab modt third code = Num r /\ inF (fmt_of G) r /\ (Rabs (Q2R r - c) <= 1.53 * Q2R (p2 (e - fsz G)))%R.
Proof. intros. eapply cbrt_accurate_sec; eassumption. Qed.
Print Assumptions cbrt_accurate.

(* 27: the result is 3 *)
Example cbrt_accurate_case :
  cbrt_fmt ML_Binary32 /\ cbrt_tables ML_Binary32 tab32 mod32 third32 /\ has_fields ML_Binary32 1104674816 false 131 5767168
  /\ (exists x, get_value_from_integer_coding ML_Binary32 1104674816 = Num x /\ (x == 27)%Q)
  /\ cube_root 27 3 /\ (Q2R (p2 1) <= 3 < Q2R (p2 (1 + 1)))%R
  /\ exists r, cbrt ML_Binary32 tab32 mod32 third32 1104674816 = Num r /\ (r == 3)%Q.
Proof.
  split; [exact fmt32|]. split; [exact tables32|]. split; [repeat split; vm_compute; try discriminate; reflexivity|].
  split; [eexists; split; [vm_compute; reflexivity|reflexivity]|].
  split; [split; lra|]. split; [split; unfold Q2R; cbn; lra|].
  eexists. split; [vm_compute; reflexivity|reflexivity].
Qed.

(* The result may be wrong by more than one unit in the last place: it is not
   one of the two neighbours of the root. *)
Theorem cbrt_faithful_refuted :
  let code := 1088166151 in
  exists x r c, get_value_from_integer_coding ML_Binary32 code = Num x /\ (x == 14424327 # 2097152)%Q
    /\ cube_root (Q2R x) c /\ (1 <= c < 2)%R
    /\ cbrt ML_Binary32 tab32 mod32 third32 code = Num r /\ (1.08 * Q2R (p2 (-23)) < Rabs (Q2R r - c))%R.
Proof.
  intros code. eexists. eexists. destruct (root_exists (Q2R (14424327 # 2097152))) as (c & Pc & Ec); [unfold Q2R; cbn; lra|].
  exists c. split; [vm_compute; reflexivity|]. split; [reflexivity|]. assert (Ev : Q2R (14424327 # 2097152) = (14424327 / 2097152)%R) by (unfold Q2R; cbn; lra).
  rewrite Ev in Ec.
  split; [split; [auto|rewrite Ec; unfold Q2R; cbn; lra]|]. 
  split; [split; [apply cube_le_inv; lra|]|].
  { destruct (Rlt_le_dec c 2) as [|L]; auto. exfalso. pose proof (mul_in c c 2 c 2 c ltac:(lra) ltac:(lra) ltac:(lra) ltac:(lra)).
    pose proof (mul_in (c * c) c 4 (c * c) 2 c ltac:(lra) ltac:(lra) ltac:(lra) ltac:(lra)). lra. }
  split; [vm_compute; reflexivity|].
  assert (B : (15953101.08 / 8388608 < c)%R).
  { destruct (Rlt_le_dec (15953101.08 / 8388608) c) as [|L]; auto. exfalso.
    pose proof (mul_in c c 0 (15953101.08 / 8388608) 0 (15953101.08 / 8388608) ltac:(lra) ltac:(lra) ltac:(lra) ltac:(lra)) as W1.
    pose proof (mul_in (c * c) c 0 (15953101.08 / 8388608 * (15953101.08 / 8388608)) 0 (15953101.08 / 8388608) ltac:(lra) ltac:(lra) ltac:(lra) ltac:(lra)) as W2. lra. }
  replace (Q2R (p2 (-23))) with (/ 8388608)%R by (unfold Q2R; cbn; lra). replace (Q2R (15953100 # 8388608)) with (15953100 / 8388608)%R by (unfold Q2R; cbn; lra).
  rewrite Rabs_left by lra. lra.
Qed.
Print Assumptions cbrt_faithful_refuted.

(* ---- C108: the other data ---- *)

(* every NaN gives a quiet NaN *)
Theorem cbrt_nan : forall G tab modt third code, t_nan (get_value_from_integer_coding G code) = true -> cbrt G tab modt third code = QNaN.
Proof.
  intros G tab modt third code H. unfold cbrt. destruct (get_value_from_integer_coding G code); try discriminate H; cbn [t_zero];
    (replace (f_div G (Num 1) _) with QNaN by reflexivity); unfold num_iteration; rewrite iterate_S; apply newton_inv_qnan.
Qed.
Print Assumptions cbrt_nan.
Example cbrt_nan_case : t_nan (get_value_from_integer_coding ML_Binary32 2143289344) = true /\ t_nan (get_value_from_integer_coding ML_Binary32 2139095041) = true.
Proof. split; vm_compute; reflexivity. Qed.

(* both zeros give +0 *)
Theorem cbrt_zero : forall G tab modt third code, fmt_ok G -> (exists s, has_fields G code s 0 0) -> cbrt G tab modt third code = PZero.
Proof.
  intros G tab modt third code Hok (s & HF). pose proof (decode_ieee G Hok code s 0 0 HF) as D. unfold cbrt.
  assert (P1 : 2 <= 2 ^ esz G) by (destruct Hok as [E2 _]; pose proof (Z.pow_le_mono_r 2 1 (esz G) ltac:(lia) ltac:(lia)); lia).
  inversion D; subst; try lia; try reflexivity; exfalso; lia.
Qed.
Print Assumptions cbrt_zero.
(* the root of -0 is not -0 *)
Theorem cbrt_zero_sign_refuted : exists code, get_value_from_integer_coding ML_Binary32 code = MZero /\
  forall tab modt third, cbrt ML_Binary32 tab modt third code = PZero.
Proof. exists 2147483648. split; [vm_compute; reflexivity|]. intros. apply cbrt_zero; [split; vm_compute; discriminate|exists true; repeat split; vm_compute; try discriminate; reflexivity]. Qed.
Print Assumptions cbrt_zero_sign_refuted.

(* no negative normal number has a negative root *)
Theorem cbrt_negative_refuted : forall G tab modt third code E M x, cbrt_fmt G -> cbrt_tables G tab modt third ->
  has_fields G code true E M -> 0 < E < 2 ^ esz G - 1 -> get_value_from_integer_coding G code = Num x ->
  (Q2R x < 0)%R /\ (cbrt G tab modt third code = PInf \/ exists r, cbrt G tab modt third code = Num r /\ (0 < Q2R r)%R).
Proof. intros. eapply cbrt_negative_sec; eassumption. Qed.
Print Assumptions cbrt_negative_refuted.
(* -8 *)
Example cbrt_negative_case : has_fields ML_Binary32 3238002688 true 130 0 /\ (exists x, get_value_from_integer_coding ML_Binary32 3238002688 = Num x /\ (x == -8)%Q)
  /\ cbrt ML_Binary32 tab32 mod32 third32 3238002688 = PInf.
Proof.
  split; [repeat split; vm_compute; try discriminate; reflexivity|]. split; [eexists; split; [vm_compute; reflexivity|reflexivity]|].
  vm_compute. reflexivity.
Qed.

(* the root of an infinity is a NaN *)
Theorem cbrt_inf_refuted : forall G tab modt third code s, cbrt_fmt G -> cbrt_tables G tab modt third -> has_fields G code s (2 ^ esz G - 1) 0 ->
  get_value_from_integer_coding G code = (if s then MInf else PInf) /\ cbrt G tab modt third code = QNaN.
Proof. intros. eapply cbrt_inf_sec; eassumption. Qed.
Print Assumptions cbrt_inf_refuted.
Example cbrt_inf_case : has_fields ML_Binary32 2139095040 false (2 ^ 8 - 1) 0 /\ cbrt ML_Binary32 tab32 mod32 third32 2139095040 = QNaN.
Proof. split; [repeat split; vm_compute; try discriminate; reflexivity|vm_compute; reflexivity]. Qed.

(* the root of a tiny number is infinite and has the other sign *)
Theorem cbrt_tiny_refuted : forall G tab modt third code s M, cbrt_fmt G -> cbrt_tables G tab modt third -> has_fields G code s 0 M -> 0 < M <= 2 ^ (fsz G - 2) ->
  cbrt G tab modt third code = if s then PInf else MInf.
Proof. intros. eapply cbrt_tiny_sec; eassumption. Qed.
Print Assumptions cbrt_tiny_refuted.
Example cbrt_tiny_case : has_fields ML_Binary32 1 false 0 1 /\ cbrt ML_Binary32 tab32 mod32 third32 1 = MInf.
Proof. split; [repeat split; vm_compute; try discriminate; reflexivity|vm_compute; reflexivity]. Qed.
