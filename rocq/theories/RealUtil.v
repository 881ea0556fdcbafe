(* Real-number tools of the elementary functions: powers of two, Taylor bounds of
   the exponential, nearest numbers of a format to a real. *)
From Coq Require Import Reals Lra Lia QArith Qpower Qabs Qreals ZArith.
From Verif Require Import QUtil RoundSpec RoundProofs RealLn2.
Open Scope R_scope.

Lemma Rabs_le_inv : forall x y, Rabs x <= y -> - y <= x <= y.
Proof. intros x y. unfold Rabs. destruct (Rcase_abs x); lra. Qed.

Lemma Q2R_Z : forall z, Q2R (inject_Z z) = IZR z.
Proof. intros z. unfold Q2R, inject_Z. cbn [Qnum Qden]. field. Qed.
Lemma Q2R_0 : Q2R 0 = 0. Proof. apply (Q2R_Z 0). Qed.
Lemma Q2R_1 : Q2R 1 = 1. Proof. apply (Q2R_Z 1). Qed.
Lemma Q2R_abs : forall q, Q2R (Qabs q) = Rabs (Q2R q).
Proof.
  intros q. destruct (Qlt_le_dec q 0) as [H|H].
  - rewrite (Qeq_eqR _ _ (Qabs_neg q (Qlt_le_weak _ _ H))), Q2R_opp.
    apply Qlt_Rlt in H. rewrite Q2R_0 in H. rewrite Rabs_left; lra.
  - rewrite (Qeq_eqR _ _ (Qabs_pos q H)). apply Qle_Rle in H. rewrite Q2R_0 in H. rewrite Rabs_right; lra.
Qed.

(* 2^e as an exponential *)
Lemma p2_exp : forall e, Q2R (p2 e) = exp (IZR e * ln 2).
Proof.
  assert (P : forall n, Q2R (p2 (Z.of_nat n)) = exp (IZR (Z.of_nat n) * ln 2)).
  { induction n as [|n IH].
    - cbn [Z.of_nat]. rewrite Rmult_0_l, exp_0. rewrite (Qeq_eqR _ _ p2_0). apply Q2R_1.
    - rewrite Nat2Z.inj_succ. unfold Z.succ. rewrite (Qeq_eqR _ _ (p2_succ _)), Q2R_mult, IH.
      rewrite plus_IZR, Rmult_plus_distr_r, exp_plus, Rmult_1_l, exp_ln by lra.
      change 2%Q with (inject_Z 2). rewrite Q2R_Z. ring. }
  intros e. destruct (Z.le_gt_cases 0 e) as [H|H].
  - rewrite <- (Z2Nat.id e) by auto. apply P.
  - pose proof (Qeq_eqR _ _ (p2_opp (- e))) as O. rewrite Q2R_mult, Z.opp_involutive, Q2R_1 in O.
    assert (E : Q2R (p2 (- e)) = exp (IZR (- e) * ln 2)).
    { rewrite <- (Z2Nat.id (- e)) by lia. apply P. }
    rewrite E in O. assert (M : exp (IZR e * ln 2) * exp (IZR (- e) * ln 2) = 1).
    { rewrite <- exp_plus. rewrite opp_IZR. rewrite <- exp_0. f_equal. ring. }
    pose proof (exp_pos (IZR (- e) * ln 2)). apply Rmult_eq_reg_r with (exp (IZR (- e) * ln 2)); lra.
Qed.

Lemma p2R_pos : forall e, 0 < Q2R (p2 e).
Proof. intros e. rewrite p2_exp. apply exp_pos. Qed.
Lemma p2R_plus : forall a b, Q2R (p2 (a + b)) = Q2R (p2 a) * Q2R (p2 b).
Proof. intros a b. rewrite (Qeq_eqR _ _ (p2_plus a b)). apply Q2R_mult. Qed.
Lemma p2R_le : forall a b, (a <= b)%Z -> Q2R (p2 a) <= Q2R (p2 b).
Proof. intros a b H. apply Qle_Rle, p2_le; auto. Qed.
Lemma p2R_lt : forall a b, (a < b)%Z -> Q2R (p2 a) < Q2R (p2 b).
Proof. intros a b H. apply Qlt_Rlt, p2_lt; auto. Qed.
Lemma p2R_Z : forall e, (0 <= e)%Z -> Q2R (p2 e) = IZR (2 ^ e).
Proof. intros e H. rewrite (Qeq_eqR _ _ (p2_Z e H)). apply Q2R_Z. Qed.
Lemma p2R_0 : Q2R (p2 0) = 1.
Proof. rewrite p2R_Z by lia. reflexivity. Qed.

(* partial sums of the exponential series *)
Fixpoint expT (n : nat) (t : R) : R :=
  match n with O => 0 | S m => expT m t + t ^ m / INR (fact m) end.

Lemma expT_deriv : forall n t, derivable_pt_lim (expT (S n)) t (expT n t).
Proof.
  induction n as [|n IH]; intros t.
  - cbn [expT]. intros eps He. exists (mkposreal 1 Rlt_0_1). intros h Hh _. cbn [pow fact INR].
    replace ((0 + 1 / 1 - (0 + 1 / 1)) / h - 0) with 0 by (field; auto). rewrite Rabs_R0. auto.
  - cbn [expT]. change (expT (S (S n))) with (fun t => expT (S n) t + t ^ (S n) / INR (fact (S n))).
    apply (derivable_pt_lim_plus (expT (S n)) (fun t => t ^ S n / INR (fact (S n)))); [apply IH|].
    assert (E : t ^ n / INR (fact n) = / INR (fact (S n)) * (INR (S n) * t ^ pred (S n))).
    { cbn [pred]. rewrite fact_simpl, mult_INR. field. split; [apply INR_fact_neq_0|apply not_0_INR; lia]. }
    rewrite E.
    pose proof (derivable_pt_lim_scal (fun t => t ^ S n) (/ INR (fact (S n))) t _ (derivable_pt_lim_pow t (S n))) as D.
    unfold mult_real_fct in D. intros eps He. destruct (D eps He) as [d Hd]. exists d. intros h Hh Hd'.
    specialize (Hd h Hh Hd').
    replace ((t + h) ^ S n / INR (fact (S n)) - t ^ S n / INR (fact (S n)))
      with (/ INR (fact (S n)) * (t + h) ^ S n - / INR (fact (S n)) * t ^ S n); auto.
    unfold Rdiv. ring.
Qed.

Lemma expT_0 : forall n, expT (S n) 0 = 1.
Proof.
  induction n as [|n IH]; [cbn; field|].
  change (expT (S (S n)) 0) with (expT (S n) 0 + 0 ^ S n / INR (fact (S n))).
  rewrite IH. cbn [pow]. unfold Rdiv. ring.
Qed.

Lemma exp_half_le2 : forall t, t <= 1 / 2 -> exp t <= 2.
Proof.
  intros t H. assert (E : exp (1 / 2) * exp (1 / 2) = exp 1) by (rewrite <- exp_plus; f_equal; lra).
  pose proof exp_le_3 as E3. pose proof (exp_pos (1 / 2)).
  assert (exp (1 / 2) <= 2) by nra.
  assert (exp t <= exp (1 / 2)). { destruct (Rle_lt_or_eq_dec _ _ H) as [L| ->]; [left; apply exp_increasing; auto|right; auto]. }
  lra.
Qed.

Lemma exp_taylor : forall n t, Rabs t <= 1 / 2 -> Rabs (exp t - expT n t) <= 2 * Rabs t ^ n.
Proof.
  induction n as [|n IH]; intros t Ht.
  - cbn [expT pow]. rewrite Rminus_0_r, Rmult_1_r, Rabs_pos_eq by (left; apply exp_pos).
    apply exp_half_le2. apply Rle_trans with (Rabs t); auto. apply Rle_abs.
  - set (g := fun t => exp t - expT (S n) t).
    assert (D : forall c, derivable_pt_lim g c (exp c - expT n c)).
    { intros c. apply (derivable_pt_lim_minus exp (expT (S n))); [apply derivable_pt_lim_exp|apply expT_deriv]. }
    assert (G0 : g 0 = 0) by (unfold g; rewrite exp_0, expT_0; ring).
    destruct (Rtotal_order t 0) as [L|[->|L]].
    + destruct (MVT_cor2 g (fun c => exp c - expT n c) t 0 L (fun c _ => D c)) as (c & E & Hc).
      rewrite G0 in E. assert (E' : g t = t * (exp c - expT n c)) by lra.
      change (Rabs (g t) <= 2 * Rabs t ^ S n). rewrite E', Rabs_mult. cbn [pow].
      rewrite (Rabs_left t) in * by auto.
      specialize (IH c). rewrite (Rabs_left c) in IH by lra.
      assert (Q : Rabs (exp c - expT n c) <= 2 * (- t) ^ n).
      { eapply Rle_trans; [apply IH; lra|]. assert ((- c) ^ n <= (- t) ^ n) by (apply pow_incr; lra). lra. }
      pose proof (Rabs_pos (exp c - expT n c)). nra.
    + change (Rabs (g 0) <= 2 * Rabs 0 ^ S n). rewrite G0, Rabs_R0. cbn [pow]. lra.
    + destruct (MVT_cor2 g (fun c => exp c - expT n c) 0 t L (fun c _ => D c)) as (c & E & Hc).
      rewrite G0 in E. assert (E' : g t = t * (exp c - expT n c)) by lra.
      change (Rabs (g t) <= 2 * Rabs t ^ S n). rewrite E', Rabs_mult. cbn [pow].
      rewrite (Rabs_right t) in * by lra.
      specialize (IH c). rewrite (Rabs_right c) in IH by lra.
      assert (Q : Rabs (exp c - expT n c) <= 2 * t ^ n).
      { eapply Rle_trans; [apply IH; lra|]. assert (c ^ n <= t ^ n) by (apply pow_incr; lra). lra. }
      pose proof (Rabs_pos (exp c - expT n c)). nra.
Qed.

Lemma expT_8 : forall t, expT 8 t = 1 + t + t * t / 2 + t * t * t / 6 + t * t * t * t / 24
  + t * t * t * t * t / 120 + t * t * t * t * t * t / 720 + t * t * t * t * t * t * t / 5040.
Proof.
  intros t. cbn [expT]. rewrite !INR_IZR_INZ.
  change (Z.of_nat (fact 0)) with 1%Z. change (Z.of_nat (fact 1)) with 1%Z. change (Z.of_nat (fact 2)) with 2%Z.
  change (Z.of_nat (fact 3)) with 6%Z. change (Z.of_nat (fact 4)) with 24%Z. change (Z.of_nat (fact 5)) with 120%Z.
  change (Z.of_nat (fact 6)) with 720%Z. replace (Z.of_nat (fact 7)) with 5040%Z by (vm_compute; reflexivity).
  cbn [pow]. field.
Qed.

Lemma ln2_num_bounds : 0.6931 < ln 2 < 0.6932.
Proof.
  destruct ln2_bounds as [A B].
  assert (Q2R (6931 # 10000) <= Q2R ln2_lo) by (apply Qle_Rle; vm_compute; discriminate).
  assert (Q2R ln2_hi <= Q2R (6932 # 10000)) by (apply Qle_Rle; vm_compute; discriminate).
  unfold Q2R in * |-. cbn [Qnum Qden] in *. lra.
Qed.

Lemma p2R_small : forall e, (e <= -15)%Z -> 0 < Q2R (p2 e) <= / 32768.
Proof.
  intros e H. split; [apply p2R_pos|]. eapply Rle_trans; [apply p2R_le; exact H|].
  assert (E : Q2R (p2 (-15)) * Q2R (p2 15) = 1) by (rewrite <- p2R_plus; apply p2R_0).
  rewrite (p2R_Z 15) in E by lia. change (2 ^ 15)%Z with 32768%Z in E. lra.
Qed.

Lemma p2R_neg : forall j, (0 <= j)%Z -> Q2R (p2 (- j)) = / IZR (2 ^ j).
Proof.
  intros j H. assert (E : Q2R (p2 (- j)) * Q2R (p2 j) = 1) by (rewrite <- p2R_plus, <- p2R_0; do 2 f_equal; lia).
  rewrite (p2R_Z j) in E by auto.
  assert (IZR (2 ^ j) <> 0). { apply not_0_IZR. assert (0 < 2 ^ j)%Z by (apply Z.pow_pos_nonneg; lia). lia. }
  apply Rmult_eq_reg_r with (IZR (2 ^ j)); auto. rewrite E. field. auto.
Qed.

Lemma exp_num : forall t, Rabs t <= 0.35 -> 0.7042 <= exp t <= 1.4196.
Proof.
  intros t Ht. apply Rabs_le_inv in Ht.
  assert (A1 : exp t <= exp (7 / 20)). { destruct (Rle_lt_or_eq_dec t (7 / 20)) as [L| ->]; [lra|left; apply exp_increasing; auto|right; auto]. }
  assert (A2 : exp (- (7 / 20)) <= exp t). { destruct (Rle_lt_or_eq_dec (- (7 / 20)) t) as [L| <-]; [lra|left; apply exp_increasing; auto|right; auto]. }
  assert (T1 : Rabs (exp (7 / 20) - expT 8 (7 / 20)) <= 2 * Rabs (7 / 20) ^ 8) by (apply exp_taylor; rewrite Rabs_pos_eq; lra).
  assert (T2 : Rabs (exp (- (7 / 20)) - expT 8 (- (7 / 20))) <= 2 * Rabs (- (7 / 20)) ^ 8) by (apply exp_taylor; rewrite Rabs_Ropp, Rabs_pos_eq; lra).
  rewrite Rabs_Ropp in T2. rewrite (Rabs_pos_eq (7 / 20)) in T1, T2 by lra. apply Rabs_le_inv in T1, T2.
  rewrite expT_8 in T1, T2. cbn [pow] in T1, T2. lra.
Qed.

Lemma p2R_sub : forall a j, (0 <= j)%Z -> Q2R (p2 (a - j)) = Q2R (p2 a) / IZR (2 ^ j).
Proof.
  intros a j H. replace (a - j)%Z with (a + - j)%Z by lia. rewrite p2R_plus, p2R_neg by auto. reflexivity.
Qed.

(* the exponential and its second-order remainder are Lipschitz near 0 *)
Lemma exp_lip : forall B a b, a <= B -> b <= B -> Rabs (exp a - exp b) <= exp B * Rabs (a - b).
Proof.
  assert (W : forall B a b, a < b -> b <= B -> Rabs (exp a - exp b) <= exp B * Rabs (a - b)).
  { intros B a b L Hb. destruct (MVT_cor2 exp exp a b L (fun c _ => derivable_pt_lim_exp c)) as (c & E & Hc).
    assert (Hcb : exp c <= exp B) by (left; apply exp_increasing; lra). pose proof (exp_pos c).
    rewrite (Rabs_minus_sym (exp a)), (Rabs_minus_sym a), E, Rabs_mult, (Rabs_pos_eq (exp c)) by lra.
    apply Rmult_le_compat_r; [apply Rabs_pos|auto]. }
  intros B a b Ha Hb. destruct (Rtotal_order a b) as [L|[->|L]].
  - apply W; auto.
  - replace (exp b - exp b) with 0 by ring. rewrite Rabs_R0. apply Rmult_le_pos; [left; apply exp_pos|apply Rabs_pos].
  - rewrite (Rabs_minus_sym (exp a)), (Rabs_minus_sym a). apply W; auto.
Qed.

Definition exp_rem2 (t : R) : R := exp t - 1 - t.

Lemma exp_rem2_lip : forall M a b, (forall t, Rmin a b <= t <= Rmax a b -> Rabs (exp t - 1) <= M) ->
  Rabs (exp_rem2 a - exp_rem2 b) <= M * Rabs (a - b).
Proof.
  assert (D : forall c, derivable_pt_lim exp_rem2 c (exp c - 0 - 1)).
  { intros c. apply (derivable_pt_lim_minus (fun t => exp t - 1) (fun t => t)).
    - apply (derivable_pt_lim_minus exp (fun _ => 1)); [apply derivable_pt_lim_exp|apply derivable_pt_lim_const].
    - apply derivable_pt_lim_id. }
  assert (W : forall M a b, a < b -> (forall t, a <= t <= b -> Rabs (exp t - 1) <= M) ->
    Rabs (exp_rem2 a - exp_rem2 b) <= M * Rabs (a - b)).
  { intros M a b L Hb. destruct (MVT_cor2 exp_rem2 (fun c => exp c - 0 - 1) a b L (fun c _ => D c)) as (c & E & Hc).
    assert (HM : Rabs (exp c - 1) <= M) by (apply Hb; lra).
    rewrite (Rabs_minus_sym (exp_rem2 a)), (Rabs_minus_sym a), E, Rabs_mult.
    replace (exp c - 0 - 1) with (exp c - 1) by ring.
    apply Rmult_le_compat_r; [apply Rabs_pos|auto]. }
  intros M a b Hb. destruct (Rtotal_order a b) as [L|[->|L]].
  - apply W; auto. intros t Ht. apply Hb. rewrite Rmin_left, Rmax_right by lra. auto.
  - replace (exp_rem2 b - exp_rem2 b) with 0 by ring. replace (b - b) with 0 by ring. rewrite Rabs_R0. lra.
  - rewrite (Rabs_minus_sym (exp_rem2 a)), (Rabs_minus_sym a). apply W; auto.
    intros t Ht. apply Hb. rewrite Rmin_right, Rmax_left by lra. auto.
Qed.

(* a real of moderate size is near a number of the format *)
Lemma near_exists : forall F e x, (1 <= prec F)%Z -> exp_ok F e -> Rabs x <= Q2R (p2 (prec F + e)) ->
  exists f, inF F f /\ Rabs (Q2R f - x) <= Q2R (p2 (e - 1)).
Proof.
  intros F e x Hp Ho Hx. pose proof (p2R_pos e) as Pe.
  set (n := Int_part (x / Q2R (p2 e) + 1 / 2)).
  destruct (base_Int_part (x / Q2R (p2 e) + 1 / 2)) as [B1 B2]. fold n in B1, B2.
  assert (Ex : x / Q2R (p2 e) * Q2R (p2 e) = x) by (field; lra).
  assert (H2 : 2 * Q2R (p2 (e - 1)) = Q2R (p2 e)).
  { replace e with (1 + (e - 1))%Z at 2 by lia. rewrite p2R_plus, (p2R_Z 1) by lia. reflexivity. }
  assert (N : Rabs (IZR n * Q2R (p2 e) - x) <= Q2R (p2 (e - 1))).
  { set (y := x / Q2R (p2 e)) in *. clearbody y. apply Rabs_le. rewrite <- Ex. split; nra. }
  exists (inject_Z n * p2 e)%Q. rewrite Q2R_mult, Q2R_Z. split; auto.
  exists n, e. split; [reflexivity|]. split; auto.
  rewrite p2R_plus, (p2R_Z (prec F)) in Hx by lia.
  assert (Hy : Rabs (x / Q2R (p2 e)) <= IZR (2 ^ prec F)).
  { apply Rmult_le_reg_r with (Q2R (p2 e)); auto. rewrite <- (Rabs_pos_eq (Q2R (p2 e))) at 2 by lra.
    rewrite <- Rabs_mult, Ex. auto. }
  apply Rabs_le_inv in Hy.
  assert (L1 : IZR n < IZR (2 ^ prec F + 1)) by (rewrite plus_IZR; lra).
  assert (L2 : IZR (- 2 ^ prec F - 1) < IZR n) by (rewrite minus_IZR, opp_IZR; lra).
  apply lt_IZR in L1, L2. lia.
Qed.

(* q is a number of the format nearest to the real x *)
Definition nearestR (F : fmt) (q : Q) (x : R) : Prop :=
  inF F q /\ forall f, inF F f -> Rabs (Q2R q - x) <= Rabs (Q2R f - x).

Lemma nearestR_half : forall F e q x, (1 <= prec F)%Z -> nearestR F q x -> exp_ok F e ->
  Rabs x <= Q2R (p2 (prec F + e)) -> Rabs (Q2R q - x) <= Q2R (p2 (e - 1)).
Proof.
  intros F e q x Hp [_ N] Ho Hx. destruct (near_exists F e x Hp Ho Hx) as (f & I & B).
  eapply Rle_trans; [apply N; exact I|auto].
Qed.

(* a full-precision significand within half a unit is the nearest number *)
Lemma nearestR_intro : forall F m e x, (1 <= prec F)%Z -> exp_ok F e ->
  (2 ^ (prec F - 1) < Z.abs m < 2 ^ prec F)%Z ->
  Rabs (IZR m * Q2R (p2 e) - x) <= Q2R (p2 (e - 1)) -> nearestR F (inject_Z m * p2 e) x.
Proof.
  intros F m e x Hp Ho Hm Hx. split.
  { exists m, e. split; [reflexivity|]. split; auto. lia. }
  intros f Hf. rewrite Q2R_mult, Q2R_Z.
  assert (H2 : Q2R (p2 e) = 2 * Q2R (p2 (e - 1))).
  { replace e with (1 + (e - 1))%Z at 1 by lia. rewrite p2R_plus, (p2R_Z 1) by lia. reflexivity. }
  pose proof (p2R_pos e) as Pe.
  assert (S : Q2R f = IZR m * Q2R (p2 e) \/ Q2R (p2 e) <= Rabs (Q2R f - IZR m * Q2R (p2 e))).
  { destruct (Qlt_le_dec (p2 (prec F + e - 1)) (Qabs f)) as [C|C].
    - destruct (inF_big F Hp e f Hf C) as [k Hk]. apply Qeq_eqR in Hk. rewrite Q2R_mult, Q2R_Z in Hk.
      destruct (Z.eq_dec k m) as [->|N]; [left; auto|right].
      rewrite Hk. replace (IZR k * Q2R (p2 e) - IZR m * Q2R (p2 e)) with (IZR (k - m) * Q2R (p2 e)) by (rewrite minus_IZR; ring).
      rewrite Rabs_mult, (Rabs_pos_eq (Q2R (p2 e))), <- abs_IZR by lra.
      assert (1 <= IZR (Z.abs (k - m))) by (apply (IZR_le 1); lia). nra.
    - right. apply Qle_Rle in C. rewrite Q2R_abs in C.
      replace (prec F + e - 1)%Z with ((prec F - 1) + e)%Z in C by lia.
      rewrite p2R_plus, (p2R_Z (prec F - 1)) in C by lia.
      assert (A : IZR (2 ^ (prec F - 1) + 1) <= IZR (Z.abs m)) by (apply IZR_le; lia).
      rewrite plus_IZR, abs_IZR in A.
      assert (T : Rabs (IZR m * Q2R (p2 e)) = Rabs (IZR m) * Q2R (p2 e)) by (rewrite Rabs_mult, (Rabs_pos_eq (Q2R (p2 e))); lra).
      pose proof (Rabs_triang_inv (IZR m * Q2R (p2 e)) (Q2R f)) as I. rewrite (Rabs_minus_sym (IZR m * Q2R (p2 e))) in I. nra. }
  destruct S as [->|S]; [lra|].
  pose proof (Rabs_triang_inv (Q2R f - IZR m * Q2R (p2 e)) (x - IZR m * Q2R (p2 e))) as I.
  replace (Q2R f - IZR m * Q2R (p2 e) - (x - IZR m * Q2R (p2 e))) with (Q2R f - x) in I by ring.
  rewrite (Rabs_minus_sym x) in I. lra.
Qed.
