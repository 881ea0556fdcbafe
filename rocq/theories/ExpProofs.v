(* Accuracy of the whole exponential. *)
From Coq Require Import ZArith QArith Qabs Qround Bool Lia Reals Qreals Lra.
From Verif Require Import QUtil FpFormatModel FpFormatSpec FpFormatProofs RoundSpec RoundProofs RoundRne RealLn2 RealUtil PowModel.
From Verif Require Import ExpModel ExpSpec ExpReduce ExpRecon.
Open Scope Z_scope.

(* the number held by a finite datum *)
Definition fval (v : fpv) : option Q :=
  match v with Num q => Some q | PZero | MZero => Some 0%Q | _ => None end.

(* the formats considered: binary32 and wider, the constants leaving room for the
   high part of log 2 *)
Definition exp_fmt_ok (G : fpfmt) (c : exp_cst) : Prop :=
  fmt_ok G /\ sollya_ok G /\ 23 <= fsz G /\ 2 * fsz G <= - emin_normal G
  /\ 2 * Z.log2_up (sup_abs_k c) + 7 <= fsz G.

(* the sub-polynomial is within 2^-(p+5) of exp(r) - 1 - r *)
Definition sub_ok (G : fpfmt) (sub : Q -> Q) : Prop :=
  forall r, inF (fmt_of G) r -> (Rabs (Q2R r) <= 0.347)%R ->
  (Rabs (Q2R (sub r) - exp_rem2 (Q2R r)) <= Q2R (p2 (- fsz G - 6)))%R.

Section Acc.
Variables (G : fpfmt) (c : exp_cst) (sub : Q -> Q).
Hypothesis Hfmt : exp_fmt_ok G c.
Hypothesis Hcst : exp_cst_ok G c.
Hypothesis Hsub : sub_ok G sub.
Let F := fmt_of G.
Let rnd := rne F.
Let p := fsz G + 1.
Let m := Z.log2_up (sup_abs_k c).
Let em := emin_normal G - fsz G.

Let Hok : fmt_ok G. Proof. exact (proj1 Hfmt). Qed.
Let Hso : sollya_ok G. Proof. exact (proj1 (proj2 Hfmt)). Qed.
Let Hf : 23 <= fsz G. Proof. exact (proj1 (proj2 (proj2 Hfmt))). Qed.
Let Hw : 2 * fsz G <= - emin_normal G. Proof. exact (proj1 (proj2 (proj2 (proj2 Hfmt)))). Qed.
Let Hm7 : 2 * m + 7 <= fsz G. Proof. exact (proj2 (proj2 (proj2 (proj2 Hfmt)))). Qed.
Let EF : F = mkF p (Some em).
Proof. unfold F, fmt_of, p, em. rewrite Hso. f_equal. f_equal. lia. Qed.
Let Hr : nearest_in (mkF p (Some em)) rnd.
Proof. unfold rnd. rewrite EF. apply rne_nearest. cbn [prec]. unfold p. lia. Qed.
Let Hemax : emax G = 1 - emin_normal G. Proof. apply emax_emin; auto. Qed.
Let Hil : nearestR (mkF p (Some em)) (invlog2 c) (/ ln 2).
Proof. rewrite <- EF. exact (proj1 (proj2 (proj2 Hcst))). Qed.

Local Open Scope R_scope.
Lemma il_num : 1.4 < Q2R (invlog2 c) < 1.45.
Proof.
  destruct ln2_num_bounds as [A B].
  assert (I : 1.4420 < / ln 2 < 1.4430).
  { split; (apply Rmult_lt_reg_r with (ln 2); [lra|]); rewrite Rinv_l by (apply Rgt_not_eq; lra); lra. }
  assert (E : Rabs (Q2R (invlog2 c) - / ln 2) <= Q2R (p2 ((1 - p) - 1))).
  { apply (nearestR_half (mkF p (Some em)) (1 - p)); auto.
    - cbn [prec]. unfold p. lia.
    - unfold exp_ok; cbn [emin]. unfold em, p. lia.
    - cbn [prec]. replace (p + (1 - p))%Z with 1%Z by lia. rewrite (p2R_Z 1) by lia. change (IZR (2 ^ 1)) with 2. rewrite Rabs_pos_eq; lra. }
  destruct (p2R_small (1 - p - 1)) as [S1 S2]; [unfold p; lia|]. apply Rabs_le_inv in E. lra.
Qed.

Lemma K_num : (2 <= sup_abs_k c)%Z.
Proof.
  unfold sup_abs_k. destruct Hcst as [[_ O] _]. pose proof il_num as I. destruct ln2_num_bounds as [A B].
  assert (T : 2 < Q2R (inject_Z (ov_bound c) * invlog2 c)%Q).
  { rewrite Q2R_mult, Q2R_Z.
    assert (IZR 46 <= IZR (emax G + 1)) by (apply IZR_le; lia).
    assert (30 <= IZR (ov_bound c)) by nra. nra. }
  assert (T2 : (inject_Z 2 < inject_Z (ov_bound c) * invlog2 c)%Q) by (apply Rlt_Qlt; rewrite Q2R_Z; exact T).
  pose proof (Qle_ceiling (inject_Z (ov_bound c) * invlog2 c)) as C.
  assert (T3 : (inject_Z 2 < inject_Z (Qceiling (inject_Z (ov_bound c) * invlog2 c)))%Q) by (eapply Qlt_le_trans; eauto).
  rewrite <- Zlt_Qlt in T3. lia.
Qed.

Lemma m_pos : (1 <= m)%Z.
Proof. unfold m. pose proof K_num. assert (0 < Z.log2_up (sup_abs_k c))%Z by (apply Z.log2_up_pos; lia). lia. Qed.

Lemma K_2m : IZR (sup_abs_k c) <= Q2R (p2 m).
Proof.
  pose proof K_num. rewrite p2R_Z by (pose proof m_pos; lia). apply IZR_le. unfold m.
  apply Z.log2_log2_up_spec. lia.
Qed.

Variable x : Q.
Hypothesis Hx : inF F x.

Lemma x_range : IZR (uf_bound c) <= Q2R x <= IZR (ov_bound c) ->
  Rabs (Q2R x * Q2R (invlog2 c)) <= Q2R (p2 m).
Proof.
  intros [L U]. pose proof il_num as I. pose proof K_2m as K. eapply Rle_trans; [|exact K].
  pose proof (Qle_ceiling (inject_Z (ov_bound c) * invlog2 c)) as C.
  pose proof (Qfloor_le (inject_Z (uf_bound c) * invlog2 c)) as D.
  apply Qle_Rle in C, D. rewrite Q2R_mult, !Q2R_Z in C, D.
  assert (B1 : IZR (Qceiling (inject_Z (ov_bound c) * invlog2 c)) <= IZR (sup_abs_k c)) by (apply IZR_le; unfold sup_abs_k; lia).
  assert (B2 : IZR (- Qfloor (inject_Z (uf_bound c) * invlog2 c)) <= IZR (sup_abs_k c)) by (apply IZR_le; unfold sup_abs_k; lia).
  rewrite opp_IZR in B2. apply Rabs_le. split; nra.
Qed.

Let k := red_k rnd c x.
Let poly := exp_poly rnd c sub x.
Let rho := Q2R x - IZR k * ln 2.
Let u := Q2R (p2 (- p)).

Section InRange.
Hypothesis Hrange : IZR (uf_bound c) <= Q2R x <= IZR (ov_bound c).
Let Hxb := x_range Hrange.
Let H24 : (24 <= p)%Z. Proof. unfold p. lia. Qed.
Let H2m8 : (2 * m + 8 <= p)%Z. Proof. unfold p. lia. Qed.
Let Hem : (em <= - 2 * p - 10)%Z. Proof. unfold em, p. lia. Qed.
Let Hhi : nearestR (mkF (p - m - 3) None) (log2_hi c) (ln 2).
Proof.
  replace (p - m - 3)%Z with (log2_hi_precision G c) by (unfold log2_hi_precision; fold m; unfold p; lia).
  exact (proj1 (proj2 (proj2 (proj2 Hcst)))).
Qed.
Let Hlo : nearestR (mkF p (Some em)) (log2_lo c) (ln 2 - Q2R (log2_hi c)).
Proof. rewrite <- EF. exact (proj2 (proj2 (proj2 (proj2 Hcst)))). Qed.
Let HxF : inF (mkF p (Some em)) x. Proof. rewrite <- EF. exact Hx. Qed.

Lemma poly_acc : Rabs (Q2R poly - exp rho) <= 1.4737 * u
  /\ (Q2R poly < 1 \/ exp rho < 1 -> Rabs (Q2R poly - exp rho) <= 0.9737 * u)
  /\ 0.7 <= Q2R poly <= 1.42 /\ 0.7042 <= exp rho <= 1.4196.
Proof.
  apply (poly_accurate p m em rnd c Hr m_pos H2m8 H24 Hem Hil Hhi Hlo x HxF Hxb (sub (red_r rnd c x))).
  destruct (r_accurate p m em rnd c Hr m_pos H2m8 H24 Hem Hil Hhi Hlo x HxF Hxb) as [_ B].
  eapply Rle_trans.
  - apply Hsub; [|exact B]. rewrite <- EF in Hr. apply (rnd_inF F rnd Hr).
  - right. replace (- fsz G - 6)%Z with (- p - 5)%Z by (unfold p; lia).
    change 32 with (IZR (2 ^ 5)). apply p2R_sub. lia.
Qed.

Lemma reduction : (exact_pre_mul rnd c k == inject_Z k * log2_hi c)%Q
  /\ (exact_hi_part rnd c x == x - inject_Z k * log2_hi c)%Q
  /\ Rabs (Q2R (red_r rnd c x) - rho) <= u / 4 + u / 64 /\ Rabs (Q2R (red_r rnd c x)) <= 0.347.
Proof.
  split; [exact (pre_mul_exact p m em rnd c Hr m_pos H2m8 H24 Hem Hhi x Hxb)|].
  split; [exact (hi_part_exact p m em rnd c Hr m_pos H2m8 H24 Hem Hil Hhi x HxF Hxb)|].
  exact (r_accurate p m em rnd c Hr m_pos H2m8 H24 Hem Hil Hhi Hlo x HxF Hxb).
Qed.

Lemma poly_in : inF F poly.
Proof. rewrite <- EF in Hr. apply (rnd_inF F rnd Hr). Qed.

Lemma rho_b : Rabs rho <= 0.3467.
Proof. exact (rho_num p m em rnd c Hr m_pos H2m8 H24 Hem Hil x Hxb). Qed.

Lemma k_range : (emin_subnormal G - 2 <= k <= emax G + 2)%Z.
Proof.
  destruct Hcst as [O [U _]]. pose proof rho_b as R. apply Rabs_le_inv in R. unfold rho in R.
  destruct ln2_num_bounds as [A B].
  assert (L1 : IZR (emin_subnormal G - 2) < IZR k).
  { rewrite minus_IZR. apply Rmult_lt_reg_r with (ln 2); [lra|]. lra. }
  assert (L2 : IZR k < IZR (emax G + 1 + 2)).
  { rewrite (plus_IZR (emax G + 1)). apply Rmult_lt_reg_r with (ln 2); [lra|]. lra. }
  apply lt_IZR in L1, L2. lia.
Qed.

Lemma ex_split : exp (Q2R x) = Q2R (p2 k) * exp rho.
Proof. rewrite p2_exp, <- exp_plus. f_equal. unfold rho. ring. Qed.

Lemma exp_std_round : exp_std G c sub x = datum (sollya_round G (p2 k * poly)) false.
Proof.
  unfold exp_std. fold F rnd k poly.
  assert (Q1 : Qle_bool x (inject_Z (ov_bound c)) = true) by (apply Qle_bool_iff, Rle_Qle; rewrite Q2R_Z; lra).
  assert (Q2 : Qle_bool (inject_Z (uf_bound c)) x = true) by (apply Qle_bool_iff, Rle_Qle; rewrite Q2R_Z; lra).
  rewrite Q1, Q2. cbn [negb].
  destruct poly_acc as (_ & _ & P & _).
  apply exp_result_round; auto using poly_in, k_range; try lia.
  - apply Rle_Qle. replace (Q2R (p2 (-1))) with (1/2) by (cbv; lra). lra.
  - apply Rlt_Qlt. change 2%Q with (inject_Z 2). rewrite Q2R_Z. lra.
Qed.

(* error of the last rounding *)
Lemma last_round : Q2R (p2 k * poly) < Q2R (p2 (emax G + 1)) ->
  exists q, fval (exp_std G c sub x) = Some q
  /\ ((emin_normal G + 1 <= k)%Z \/ (k = emin_normal G /\ 1 <= Q2R poly) -> Q2R q = Q2R (p2 k) * Q2R poly)
  /\ ((k <= emin_normal G)%Z -> Rabs (Q2R q - Q2R (p2 k) * Q2R poly) <= Q2R (p2 (em - 1))).
Proof.
  intros B. rewrite exp_std_round. destruct poly_acc as (_ & _ & P & _).
  pose proof (p2R_pos k) as Pk. pose proof poly_in as PI.
  assert (Hp1 : (1 <= prec F)%Z) by (rewrite EF; cbn [prec]; unfold p; lia).
  assert (Hr' : nearest_in F rnd) by (rewrite EF; exact Hr).
  assert (L2 : (p2 (-1) <= poly)%Q) by (apply Rle_Qle; replace (Q2R (p2 (-1))) with (1/2) by (cbv; lra); lra).
  assert (U2 : (poly < 2)%Q) by (apply Rlt_Qlt; change 2%Q with (inject_Z 2); rewrite Q2R_Z; lra).
  assert (Pq : (0 < p2 k * poly)%Q) by (apply Rlt_Qlt; rewrite Q2R_mult, Q2R_0; nra).
  (* cases where nothing is rounded *)
  assert (EX : ((emin_normal G + 1 <= k)%Z \/ (k = emin_normal G /\ 1 <= Q2R poly)) -> inF F (p2 k * poly)).
  { intros [C|[C D]].
    - apply scaled_in; auto; lia.
    - apply (inF_intro F Hp1 (k - fsz G)).
      + assert (M : mult (- fsz G) poly).
        { destruct (Qlt_le_dec 1 poly) as [C1|C1].
          - apply (inF_big F Hp1 _ _ PI). rewrite EF; cbn [prec]. unfold p. replace (fsz G + 1 + - fsz G - 1)%Z with 0%Z by lia.
            apply Rlt_Qlt. apply Qlt_Rlt in C1. rewrite Q2R_1 in C1. rewrite p2R_0, Q2R_abs, Rabs_pos_eq; lra.
          - apply (mult_comp _ (p2 0)); [|apply mult_p2; lia]. rewrite p2_0. apply Qle_antisym; auto.
            apply Rle_Qle. rewrite Q2R_1. lra. }
        destruct M as [j Hj]. exists j. rewrite Hj. replace (k - fsz G)%Z with (k + - fsz G)%Z by lia. rewrite p2_plus. ring.
      + rewrite EF. unfold exp_ok; cbn [emin]. unfold em. lia.
      + apply Rle_Qle. rewrite Q2R_abs, Q2R_mult. rewrite EF; cbn [prec]. unfold p. replace (fsz G + 1 + (k - fsz G))%Z with (k + 1)%Z by lia.
        rewrite p2R_plus, (p2R_Z 1) by lia. change (IZR (2 ^ 1)) with 2. rewrite Rabs_pos_eq; nra. }
  assert (RB : (Qabs (rne F (p2 k * poly)) <= Qabs (p2 k * poly))%Q \/ (k <= emin_normal G)%Z).
  { destruct (Z.le_gt_cases k (emin_normal G)) as [C|C]; auto. left.
    rewrite (rnd_id F (rne F) Hr'); [apply Qle_refl|]. apply EX. left. lia. }
  destruct (sollya_round_cases G (p2 k * poly)) as [(r & S & R & _)|[S N]].
  - rewrite S. cbn [datum].
    assert (V : exists q, fval (if Qeq_bool r 0 then PZero else Num r) = Some q /\ (q == r)%Q).
    { destruct (Qeq_bool r 0) eqn:Z; [exists 0%Q; split; auto; symmetry; apply Qeq_bool_iff; auto|exists r; split; auto; reflexivity]. }
    destruct V as (q & V1 & V2). exists q. split; auto.
    assert (V3 : Q2R q = Q2R (rne F (p2 k * poly))) by (apply Qeq_eqR; rewrite V2; exact R).
    rewrite V3, <- Q2R_mult. split.
    + intros C. apply Qeq_eqR. apply (rnd_id F (rne F) Hr'). auto.
    + intros C. rewrite <- Q2R_minus, <- Q2R_abs. apply Qle_Rle. apply (rnd_half F Hp1 (rne F) Hr').
      * rewrite EF. unfold exp_ok; cbn [emin]. lia.
      * rewrite EF; cbn [prec]. apply Rle_Qle. rewrite Q2R_abs, Q2R_mult, Rabs_pos_eq by nra.
        apply Rle_trans with (Q2R (p2 (k + 1))); [|apply p2R_le; unfold p, em; lia].
        rewrite p2R_plus, (p2R_Z 1) by lia. change (IZR (2 ^ 1)) with 2. nra.
  - exfalso. destruct RB as [RB|RB].
    + apply Qle_Rle in N, RB. rewrite (Q2R_abs (p2 k * poly)), Rabs_pos_eq in RB by (rewrite Q2R_mult; nra). fold F in N. lra.
    + (* a small number does not overflow *)
      assert (I3 : inF F (p2 (emin_normal G + 1))).
      { apply (inF_comp F (p2 (emin_normal G + 1) * 1)%Q); [ring|]. apply scaled_in; auto; try lia.
        - fold F. exists 1%Z, 0%Z. split; [reflexivity|]. split; [|rewrite EF; unfold exp_ok; cbn [emin]; unfold em; lia].
          rewrite EF; cbn [prec]. assert (1 <= 2 ^ p)%Z by (apply (Z.pow_le_mono_r 2 0); unfold p; lia). lia.
        - vm_compute. discriminate.
        - reflexivity. }
      assert (A : (Qabs (p2 k * poly) <= p2 (emin_normal G + 1))%Q).
      { apply Rle_Qle. rewrite Q2R_abs, Q2R_mult, Rabs_pos_eq by nra.
        apply Rle_trans with (Q2R (p2 (k + 1))); [|apply p2R_le; lia].
        rewrite p2R_plus, (p2R_Z 1) by lia. change (IZR (2 ^ 1)) with 2. nra. }
      pose proof (rnd_abs_le_F F Hp1 (rne F) Hr' _ _ I3 A) as A2.
      assert (A3 : (p2 (emin_normal G + 1) < p2 (emax G + 1))%Q) by (apply p2_lt; lia).
      apply (Qlt_not_le _ _ A3). eapply Qle_trans; [exact N|]. exact A2.
Qed.

(* the last binade is left with a margin of two units *)
Theorem exp_in_range : forall E, binade (exp (Q2R x)) E ->
  exp (Q2R x) <= Q2R (p2 (emax G + 1)) * (1 - 4 * u) ->
  exists q, fval (exp_std G c sub x) = Some q /\ Rabs (Q2R q - exp (Q2R x)) < ulpR G E.
Proof.
  intros E [BE1 BE2] HO. destruct poly_acc as (A1 & A2 & P & EN). pose proof (p2R_pos k) as Pk.
  assert (U : 0 < u <= / 32768) by (apply p2R_small; unfold p; lia).
  set (W := Q2R (p2 k)) in *. rewrite ex_split in *. fold W in BE1, BE2, HO |- *.
  (* no overflow *)
  assert (NO : W * Q2R poly < Q2R (p2 (emax G + 1))).
  { destruct (Z.le_gt_cases k (emax G)) as [C|C].
    - apply Rlt_le_trans with (Q2R (p2 (k + 1))); [|apply p2R_le; lia].
      rewrite p2R_plus, (p2R_Z 1) by lia. change (IZR (2 ^ 1)) with 2. fold W. nra.
    - destruct (Z.eq_dec k (emax G + 1)) as [C2|C2].
      + unfold W in *. rewrite C2 in *. assert (exp rho <= 1 - 4 * u) by nra. apply Rabs_le_inv in A1. nra.
      + exfalso. assert (Q2R (p2 (emax G + 1 + 1)) <= W) by (apply p2R_le; lia).
        rewrite p2R_plus, (p2R_Z 1) in H by lia. change (IZR (2 ^ 1)) with 2 in H. pose proof (p2R_pos (emax G + 1)). nra. }
  destruct last_round as (q & V & R1 & R2); [rewrite Q2R_mult; exact NO|].
  exists q. split; auto. fold W in R1, R2.
  assert (EA : forall B, Rabs (Q2R poly - exp rho) <= B -> Rabs (W * Q2R poly - W * exp rho) <= W * B).
  { intros B HB. replace (W * Q2R poly - W * exp rho) with (W * (Q2R poly - exp rho)) by ring.
    rewrite Rabs_mult, (Rabs_pos_eq W) by lra. apply Rmult_le_compat_l; lra. }
  assert (W2 : forall j, Q2R (p2 (k + j)) = W * Q2R (p2 j)) by (intros; apply p2R_plus).
  (* the binade of exp(x) *)
  assert (EK : (1 <= exp rho -> E = k) /\ (exp rho < 1 -> E = (k - 1)%Z)).
  { assert (Hup : forall a, W * exp rho < Q2R (p2 (a + 1)) -> (E <= a)%Z).
    { intros a Ha. destruct (Z.le_gt_cases E a); auto. exfalso.
      assert (Q2R (p2 (a + 1)) <= Q2R (p2 E)) by (apply p2R_le; lia). lra. }
    assert (Hdn : forall a, Q2R (p2 a) <= W * exp rho -> (a <= E)%Z).
    { intros a Ha. destruct (Z.le_gt_cases a E); auto. exfalso.
      assert (Q2R (p2 (E + 1)) <= Q2R (p2 a)) by (apply p2R_le; lia). lra. }
    split; intros C; apply Z.le_antisymm.
    - apply Hup. rewrite W2, (p2R_Z 1) by lia. change (IZR (2 ^ 1)) with 2. nra.
    - apply Hdn. fold W. nra.
    - apply Hup. replace (k - 1 + 1)%Z with k by lia. fold W. nra.
    - apply Hdn. replace (k - 1)%Z with (k + -1)%Z by lia. rewrite W2.
      replace (Q2R (p2 (-1))) with (1/2) by (cbv; lra). nra. }
  destruct EK as [EK1 EK2]. unfold ulpR.
  assert (UL : forall e, Q2R (p2 (e - fsz G)) = 2 * Q2R (p2 e) * u).
  { intros e. replace (e - fsz G)%Z with (1 + e + - p)%Z by (unfold p; lia). rewrite !p2R_plus, (p2R_Z 1) by lia.
    change (IZR (2 ^ 1)) with 2. reflexivity. }
  rewrite UL. set (M := Q2R (p2 (emin_normal G))).
  assert (PM : 0 < M) by apply p2R_pos.
  assert (EM : Q2R (p2 (em - 1)) = M * u).
  { unfold M, u. rewrite <- p2R_plus. do 2 f_equal. unfold em, p. lia. }
  destruct (Z.le_gt_cases (emin_normal G + 1) k) as [CK|CK].
  - rewrite R1 by auto. destruct (Rlt_le_dec (exp rho) 1) as [C|C].
    + rewrite (EK2 C). rewrite Z.max_l by lia. eapply Rle_lt_trans; [apply EA, A2; auto|].
      replace (k - 1)%Z with (k + -1)%Z by lia. rewrite W2. replace (Q2R (p2 (-1))) with (1/2) by (cbv; lra). nra.
    + rewrite (EK1 C). rewrite Z.max_l by lia. eapply Rle_lt_trans; [apply EA, A1|]. fold W. nra.
  - assert (EE : (E <= emin_normal G)%Z) by (destruct (Rlt_le_dec (exp rho) 1) as [C|C]; [rewrite (EK2 C)|rewrite (EK1 C)]; lia).
    rewrite Z.max_r by lia. fold M.
    destruct (Z.eq_dec k (emin_normal G)) as [C0|C0].
    + assert (WM : W = M) by (unfold W, M; rewrite C0; reflexivity).
      destruct (Rlt_le_dec (Q2R poly) 1) as [C|C].
      * assert (X : Rabs (W * Q2R poly - W * exp rho) <= W * (0.9737 * u)) by (apply EA, A2; auto).
        assert (Y : Rabs (Q2R q - W * Q2R poly) <= M * u) by (rewrite <- EM; apply R2; lia).
        apply Rabs_le_inv in X, Y. apply Rabs_def1; nra.
      * rewrite R1 by auto. eapply Rle_lt_trans; [apply EA, A1|]. nra.
    + assert (WM : 2 * W <= M).
      { unfold M. apply Rle_trans with (Q2R (p2 (k + 1))); [|apply p2R_le; lia].
        rewrite W2, (p2R_Z 1) by lia. change (IZR (2 ^ 1)) with 2. lra. }
      assert (X : Rabs (W * Q2R poly - W * exp rho) <= W * (1.4737 * u)) by (apply EA, A1).
      assert (Y : Rabs (Q2R q - W * Q2R poly) <= M * u) by (rewrite <- EM; apply R2; lia).
      assert (Z : W * (1.4737 * u) <= M * (0.75 * u)) by nra.
      apply Rabs_le_inv in X, Y. apply Rabs_def1; nra.
Qed.

Theorem exp_overflow_in_range : Q2R (p2 (emax G + 1)) * (1 + 2 * u) <= exp (Q2R x) -> exp_std G c sub x = PInf.
Proof.
  intros HO. rewrite exp_std_round. destruct poly_acc as (A1 & A2 & P & EN). pose proof (p2R_pos k) as Pk.
  assert (U : 0 < u <= / 32768) by (apply p2R_small; unfold p; lia).
  rewrite ex_split in HO. set (M := Q2R (p2 (emax G + 1))) in *. assert (PM : 0 < M) by apply p2R_pos.
  assert (B : M <= Q2R (p2 k) * Q2R poly).
  { destruct (Z.le_gt_cases k (emax G)) as [C|C].
    - exfalso. assert (2 * Q2R (p2 k) <= M).
      { unfold M. apply Rle_trans with (Q2R (p2 (k + 1))); [|apply p2R_le; lia].
        rewrite p2R_plus, (p2R_Z 1) by lia. change (IZR (2 ^ 1)) with 2. lra. }
      nra.
    - destruct (Z.eq_dec k (emax G + 1)) as [C2|C2].
      + rewrite C2 in *. fold M in HO |- *. assert (1 + 2 * u <= exp rho) by nra. apply Rabs_le_inv in A1. nra.
      + assert (2 * M <= Q2R (p2 k)).
        { unfold M. apply Rle_trans with (Q2R (p2 (emax G + 1 + 1))); [|apply p2R_le; lia].
          rewrite (p2R_plus (emax G + 1)), (p2R_Z 1) by lia. change (IZR (2 ^ 1)) with 2. lra. }
        nra. }
  destruct (sollya_round_cases G (p2 k * poly)) as [(r & S & R & N)|[S N]]; [|rewrite S; reflexivity].
  exfalso.
  assert (Hp1 : (1 <= prec F)%Z) by (rewrite EF; cbn [prec]; unfold p; lia).
  assert (Hr' : nearest_in F rnd) by (rewrite EF; exact Hr).
  assert (I1 : inF F (p2 (emax G + 1))).
  { exists 1%Z, (emax G + 1)%Z. split; [unfold inject_Z; ring|]. split.
    - rewrite EF; cbn [prec]. assert (1 <= 2 ^ p)%Z by (apply (Z.pow_le_mono_r 2 0); unfold p; lia). lia.
    - rewrite EF. unfold exp_ok; cbn [emin]. unfold em. lia. }
  assert (X : (p2 (emax G + 1) <= rne F (p2 k * poly))%Q).
  { apply (rnd_ge_F F (rne F) Hr' _ _ I1). apply Rle_Qle. rewrite Q2R_mult. exact B. }
  apply (Qlt_not_le _ _ N). eapply Qle_trans; [exact X|]. apply Qle_Qabs.
Qed.
End InRange.

Theorem exp_std_accurate : forall E, binade (exp (Q2R x)) E ->
  exp (Q2R x) <= Q2R (p2 (emax G + 1)) * (1 - 4 * u) ->
  exists q, fval (exp_std G c sub x) = Some q /\ Rabs (Q2R q - exp (Q2R x)) < ulpR G E.
Proof.
  intros E HE HO. assert (U : 0 < u <= / 32768) by (apply p2R_small; unfold p; lia).
  destruct (Rlt_le_dec (Q2R x) (IZR (uf_bound c))) as [L|L].
  - destruct (Rlt_le_dec (IZR (ov_bound c)) (Q2R x)) as [L2|L2].
    + exfalso. destruct Hcst as [O [V _]]. destruct ln2_num_bounds as [A B].
      assert (IZR (emin_subnormal G) <= IZR (-1)) by (apply IZR_le; unfold emin_subnormal; unfold emin_normal in Hw; lia).
      assert (IZR 0 <= IZR (emax G + 1)) by (apply IZR_le; lia). nra.
    + exists 0%Q. unfold exp_std.
      assert (Q1 : Qle_bool x (inject_Z (ov_bound c)) = true) by (apply Qle_bool_iff, Rle_Qle; rewrite Q2R_Z; lra).
      assert (Q2 : Qle_bool (inject_Z (uf_bound c)) x = false).
      { apply Bool.not_true_iff_false. intros C. apply Qle_bool_iff in C. apply Qle_Rle in C. rewrite Q2R_Z in C. lra. }
      rewrite Q1, Q2. split; [reflexivity|]. rewrite Q2R_0. replace (0 - exp (Q2R x)) with (- exp (Q2R x)) by ring.
      rewrite Rabs_Ropp, Rabs_pos_eq by (left; apply exp_pos).
      apply Rlt_le_trans with (Q2R (p2 (emin_subnormal G))).
      * rewrite p2_exp. apply exp_increasing. destruct Hcst as [_ [V _]]. lra.
      * unfold ulpR. apply p2R_le. unfold emin_subnormal, emin_normal. lia.
  - destruct (Rle_lt_dec (Q2R x) (IZR (ov_bound c))) as [L2|L2].
    + apply exp_in_range; auto.
    + exfalso. destruct Hcst as [O _].
      assert (X : Q2R (p2 (emax G + 1)) < exp (Q2R x)) by (rewrite p2_exp; apply exp_increasing; lra).
      pose proof (p2R_pos (emax G + 1)). nra.
Qed.

Theorem exp_std_overflow : Q2R (p2 (emax G + 1)) * (1 + 2 * u) <= exp (Q2R x) -> exp_std G c sub x = PInf.
Proof.
  intros HO. destruct (Rle_lt_dec (Q2R x) (IZR (ov_bound c))) as [L2|L2].
  - destruct (Rle_lt_dec (IZR (uf_bound c)) (Q2R x)) as [L|L]; [apply exp_overflow_in_range; auto|].
    exfalso. assert (U : 0 < u <= / 32768) by (apply p2R_small; unfold p; lia).
    destruct Hcst as [_ [V _]].
    assert (X : exp (Q2R x) < Q2R (p2 (emin_subnormal G))) by (rewrite p2_exp; apply exp_increasing; lra).
    assert (Y : Q2R (p2 (emin_subnormal G)) <= Q2R (p2 (emax G + 1))) by (apply p2R_le; unfold emin_subnormal; unfold emin_normal in *; lia).
    pose proof (p2R_pos (emax G + 1)). nra.
  - unfold exp_std. assert (Q1 : Qle_bool x (inject_Z (ov_bound c)) = false).
    { apply Bool.not_true_iff_false. intros C. apply Qle_bool_iff in C. apply Qle_Rle in C. rewrite Q2R_Z in C. lra. }
    rewrite Q1. reflexivity.
Qed.
End Acc.
