(* Properties of the random generators (C44). *)
From Coq Require Import ZArith QArith Qabs Qround List Bool Lia Lqa.
From Verif Require Import QUtil FpFormatModel FpFormatSpec FpFormatProofs FixedModel FixedProps RandModel.
Import ListNotations.
Open Scope Z_scope.

(* ------------------------------------------------------------------ *)
(* weighted categories                                                  *)
(* ------------------------------------------------------------------ *)
Fixpoint qsum (l : list Q) : Q := match l with [] => 0%Q | a :: l' => (a + qsum l')%Q end.
Definition weights {K : Type} (m : list (K * Q)) : list Q := map snd m.
Definition distribution {K : Type} (m : list (K * Q)) : Prop :=
  Forall (fun w => (0 <= w)%Q) (weights m) /\ (qsum (weights m) == 1)%Q.

Lemma total_sum : forall (K : Type) (m : list (K * Q)), (total_weight m == qsum (weights m))%Q.
Proof.
  intros K m. unfold total_weight.
  assert (G : forall t, (fold_left (fun t kw => (t + snd kw)%Q) m t == t + qsum (weights m))%Q).
  { induction m as [|[k w] m IH]; intros t; cbn [fold_left weights map qsum snd]; [ring|]. rewrite IH. unfold weights. ring. }
  rewrite G. ring.
Qed.
Lemma qsum_scale : forall (K : Type) (m : list (K * Q)) c,
  (qsum (weights (map (fun kw => (fst kw, (snd kw / c)%Q)) m)) == qsum (weights m) / c)%Q.
Proof.
  intros K m c. unfold Qdiv. induction m as [|[k w] m IH]; cbn [map weights qsum fst snd]; [ring|].
  change (map snd (map (fun kw : K * Q => (fst kw, (snd kw * / c)%Q)) m)) with (weights (map (fun kw : K * Q => (fst kw, (snd kw * / c)%Q)) m)).
  rewrite IH. unfold weights. ring.
Qed.

(* normalization succeeds exactly on non-negative weights of positive sum, and
   gives a distribution on the same keys, with the same ratios *)
Theorem normalize_map_correct : forall (K : Type) (m : list (K * Q)),
  Forall (fun w => (0 <= w)%Q) (weights m) -> (0 < qsum (weights m))%Q ->
  exists m', normalize_map m = Some m' /\ distribution m' /\ map fst m' = map fst m
  /\ forall i k w, nth_error m i = Some (k, w) -> exists w', nth_error m' i = Some (k, w') /\ (w' * qsum (weights m) == w)%Q.
Proof.
  intros K m NN P. pose proof (total_sum K m) as T. unfold normalize_map.
  assert (B1 : forallb (fun kw => Qle_bool 0 (snd kw)) m = true).
  { apply forallb_forall. intros kw I. apply Qle_bool_iff. rewrite Forall_forall in NN. apply NN. apply in_map. auto. }
  assert (B2 : Qle_bool (total_weight m) 0 = false).
  { destruct (Qle_bool (total_weight m) 0) eqn:E; auto. apply Qle_bool_iff in E. lra. }
  rewrite B1, B2. cbn [negb andb]. set (c := total_weight m) in *. assert (Pc : (0 < c)%Q) by lra.
  eexists. split; [reflexivity|]. split; [split|split].
  - apply Forall_forall. intros w I. unfold weights in I. rewrite map_map in I. apply in_map_iff in I. destruct I as (kw & <- & I).
    cbn [snd]. rewrite Forall_forall in NN. pose proof (NN (snd kw) (in_map snd _ _ I)). apply Qle_shift_div_l; auto. lra.
  - rewrite qsum_scale, <- T. field. lra.
  - rewrite map_map. cbn [fst]. reflexivity.
  - intros i k w N. exists (w / c)%Q. split; [rewrite (map_nth_error _ _ _ N); reflexivity|]. rewrite <- T. field. lra.
Qed.
Theorem normalize_map_rejects : forall (K : Type) (m : list (K * Q)),
  (exists w, In w (weights m) /\ (w < 0)%Q) \/ (qsum (weights m) <= 0)%Q -> normalize_map m = None.
Proof.
  intros K m H. unfold normalize_map. destruct (forallb _ m) eqn:B1; auto. destruct (Qle_bool (total_weight m) 0) eqn:B2; auto.
  exfalso. destruct H as [(w & I & N)|H].
  - apply in_map_iff in I. destruct I as (kw & <- & I). rewrite forallb_forall in B1. apply B1 in I. apply Qle_bool_iff in I. lra.
  - rewrite <- total_sum in H. apply Qle_bool_iff in H. congruence.
Qed.

(* the category drawn is the one whose cumulated weight interval contains the
   draw; the failing fall-back is never reached *)
Theorem category_correct : forall (K : Type) (m : list (K * Q)) index, distribution m -> (0 <= index <= 1)%Q ->
  exists l1 k w l2, m = l1 ++ (k, w) :: l2 /\ get_category m index = Some k
  /\ (index <= qsum (weights l1) + w)%Q /\ (l1 = [] \/ qsum (weights l1) < index)%Q.
Proof.
  intros K m index [_ S] [_ B1]. assert (B : (index <= qsum (weights m))%Q) by lra. assert (NE : m <> []).
  { intros ->. cbn in S. lra. } clear S B1.
  revert index B NE. induction m as [|[k w] m IH]; intros index B NE; [congruence|].
  cbn [get_category]. cbn [weights map qsum snd] in B. change (map snd m) with (weights m) in B.
  destruct (Qle_bool (index - w) 0) eqn:E.
  - exists [], k, w, m. apply Qle_bool_iff in E. cbn. split; auto. split; auto. split; [lra|auto].
  - apply Qle_bool_false in E. destruct (IH (index - w)%Q) as (l1 & k' & w' & l2 & E1 & E2 & E3 & E4).
    + lra.
    + intros ->. cbn in B. lra.
    + exists ((k, w) :: l1), k', w', l2. split; [rewrite E1; reflexivity|]. split; auto.
      cbn [weights map qsum snd]. change (map snd l1) with (weights l1). split; [lra|]. right.
      destruct E4 as [-> |E4]; [cbn; lra|lra].
Qed.

(* a category of weight 0 placed first is drawn when the draw is 0 *)
Theorem category_zero_weight_refuted : forall (K : Type) (k : K) m, get_category ((k, 0%Q) :: m) 0 = Some k.
Proof. reflexivity. Qed.
Lemma qsum_nonneg : forall l, Forall (fun w => (0 <= w)%Q) l -> (0 <= qsum l)%Q.
Proof. induction 1; cbn [qsum]; lra. Qed.

(* weights adding up to less than the draw (possible with rounded weights):
   the fall-back raises *)
Theorem category_fallback : forall (K : Type) (m : list (K * Q)) index,
  Forall (fun w => (0 <= w)%Q) (weights m) -> (qsum (weights m) < index)%Q -> get_category m index = None.
Proof.
  induction m as [|[k w] m IH]; intros index NN H; auto. cbn [get_category]. inversion NN; subst.
  cbn [weights map qsum snd] in H. change (map snd m) with (weights m) in *.
  assert (P : (0 <= qsum (weights m))%Q).
  { apply qsum_nonneg; auto. }
  destruct (Qle_bool (index - w) 0) eqn:E; [apply Qle_bool_iff in E; cbn [snd] in *; lra|]. apply IH; auto. lra.
Qed.

(* ------------------------------------------------------------------ *)
(* integer generator                                                    *)
(* ------------------------------------------------------------------ *)
Theorem int_value_in_range : forall size signed c d v, 1 <= size -> 0 <= d < int_bound size signed c ->
  int_value size signed c d = Some v ->
  if signed then - 2 ^ (size - 1) <= v < 2 ^ (size - 1) else 0 <= v < 2 ^ size.
Proof.
  intros size signed c d v Hs Hd H. unfold int_value, int_rectify, int_attr, int_bound in *.
  assert (0 < 2 ^ (size - 1)) by (apply Z.pow_pos_nonneg; lia). assert (0 < 2 ^ size) by (apply Z.pow_pos_nonneg; lia).
  destruct c; try discriminate; try (destruct signed; discriminate); injection H as <-; unfold int_max, int_min in *; destruct signed;
    rewrite ?Z.sub_0_r in *; lia.
Qed.
(* three categories out of seven raise, whatever the draw *)
Theorem int_value_refuted : forall size signed d,
  int_value size signed HighValue d = None /\ int_value size signed LowValue d = None
  /\ int_value size signed NearZero d = None.
Proof. intros size [|] d; auto. Qed.
(* every value of the format can be drawn *)
Theorem int_standard_onto : forall size (signed : bool) v, 1 <= size ->
  (if signed then - 2 ^ (size - 1) <= v < 2 ^ (size - 1) else 0 <= v < 2 ^ size) ->
  exists d, 0 <= d < int_bound size signed Standard /\ int_value size signed Standard d = Some v.
Proof.
  intros size signed v Hs H. exists (v - int_min size signed). unfold int_value, int_bound, int_max, int_min.
  destruct signed; rewrite ?Z.sub_0_r; split; try lia; f_equal; lia.
Qed.

(* ------------------------------------------------------------------ *)
(* fixed-point generator                                                *)
(* ------------------------------------------------------------------ *)
Lemma rectify_bounds : forall F lo hi v, (min_value F lo <= max_value F hi)%Q ->
  (min_value F lo <= rectify F lo hi v <= max_value F hi)%Q.
Proof.
  intros F lo hi v B. unfold rectify, py_max, py_min.
  destruct (Qle_bool (max_value F hi) v) eqn:E1; cbn [negb];
  [destruct (Qle_bool (max_value F hi) (min_value F lo)) eqn:E2|destruct (Qle_bool v (min_value F lo)) eqn:E2];
  cbn [negb]; rewrite ?Qle_bool_iff in *; rewrite ?Qle_bool_false in *; lra.
Qed.
Lemma rectify_cases : forall F lo hi v,
  rectify F lo hi v = min_value F lo \/ rectify F lo hi v = max_value F hi \/ rectify F lo hi v = v.
Proof. intros. unfold rectify, py_max, py_min. repeat match goal with |- context [if ?b then _ else _] => destruct b end; auto. Qed.

(* multiple of the unit of the format *)
Definition on_grid (F : fxfmt) (v : Q) : Prop := exists k, (v == inject_Z k * p2 (- frsz F))%Q.

Lemma grid_unscale : forall F v, on_grid F v -> exists k, (v == inject_Z k * p2 (- frsz F))%Q /\ (fx_unscale F v == inject_Z k)%Q.
Proof.
  intros F v [k E]. exists k. split; auto. unfold fx_unscale. rewrite E, <- Qmult_assoc, p2_opp. ring.
Qed.
Lemma qtrunc_int : forall q z, (q == inject_Z z)%Q -> qtrunc q = z.
Proof. intros q z E. unfold qtrunc. rewrite (Qfloor_int q z E), (Qceiling_comp _ _ E), Qceiling_Z. destruct (Qle_bool 0 q); auto. Qed.

(* bounds on the grid (the defaults are): values are between the bounds, for
   every category except the constant zero and the unsigned near-zero one *)
Theorem fix_value_in_bounds : forall F lo hi c d, (min_value F lo <= max_value F hi)%Q ->
  on_grid F (min_value F lo) -> on_grid F (max_value F hi) -> 0 <= d < fix_bound F lo hi c ->
  c <> ZeroValue -> (c = NearZero -> sgn F = true) ->
  (min_value F lo <= fix_value F lo hi c d <= max_value F hi)%Q.
Proof.
  intros F lo hi c d B G1 G2 Hd NZ NN. unfold fix_value.
  destruct c; try (apply rectify_bounds; auto); [congruence| |].
  - rewrite NN by auto. apply rectify_bounds; auto.
  - cbn [fix_bound] in Hd. apply grid_unscale in G1, G2. destruct G1 as (k1 & E1 & U1), G2 as (k2 & E2 & U2).
    rewrite (qtrunc_int _ k1 U1) in *.
    rewrite (qtrunc_int _ (k2 + 1)) in Hd by (rewrite U2, inject_Z_plus; reflexivity).
    unfold fx_scale. pose proof (p2_pos (- frsz F)). rewrite E1, E2.
    split; apply Qmult_le_compat_r; try lra; rewrite inj_le_iff; lia.
Qed.

Lemma raw_grid : forall F, on_grid F (raw_min F true) /\ on_grid F (raw_max F true) \/ ~ (1 <= fx_bits F).
Proof.
  intros F. destruct (Z_lt_le_dec (fx_bits F) 1) as [|H]; [right; lia|left]. unfold raw_min, raw_max, fx_scale. split.
  - destruct (sgn F).
    + exists (- 2 ^ (fx_bits F - 1)). rewrite inject_Z_opp, <- p2_Z by lia. reflexivity.
    + exists 0. reflexivity.
  - exists (2 ^ (fx_bits F - (if sgn F then 1 else 0)) - 1). unfold Z.sub at 2. rewrite inject_Z_plus, <- p2_Z by (destruct (sgn F); lia).
    reflexivity.
Qed.

(* default bounds: the value is a number of the format *)
Theorem fix_value_representable : forall F c d, 1 <= fx_bits F -> 0 <= d < fix_bound F None None c ->
  (c = NearZero -> sgn F = true) ->
  exists k, (fix_value F None None c d == inject_Z k * p2 (- frsz F))%Q
  /\ (if sgn F then - 2 ^ (fx_bits F - 1) <= k < 2 ^ (fx_bits F - 1) else 0 <= k < 2 ^ fx_bits F).
Proof.
  intros F c d HF Hd NN. destruct (raw_grid F) as [[G1 G2]|]; [|contradiction].
  assert (P1 : 0 < 2 ^ (fx_bits F - 1)) by (apply Z.pow_pos_nonneg; lia).
  assert (P0 : 0 < 2 ^ fx_bits F) by (apply Z.pow_pos_nonneg; lia).
  pose proof (p2_pos (- frsz F)) as Pp.
  assert (Emin : (min_value F None == inject_Z (if sgn F then - 2 ^ (fx_bits F - 1) else 0) * p2 (- frsz F))%Q).
  { unfold min_value, raw_min, fx_scale. destruct (sgn F); [rewrite inject_Z_opp, <- p2_Z by lia; reflexivity|reflexivity]. }
  assert (Emax : (max_value F None == inject_Z ((if sgn F then 2 ^ (fx_bits F - 1) else 2 ^ fx_bits F) - 1) * p2 (- frsz F))%Q).
  { unfold max_value, raw_max, fx_scale. unfold Z.sub at 2. rewrite inject_Z_plus.
    destruct (sgn F); rewrite <- p2_Z by lia; rewrite ?Z.sub_0_r; reflexivity. }
  assert (B : (min_value F None <= max_value F None)%Q).
  { rewrite Emin, Emax. apply Qmult_le_compat_r; [|lra]. rewrite inj_le_iff. destruct (sgn F); lia. }
  assert (Fin : forall v, on_grid F v -> (min_value F None <= v <= max_value F None)%Q ->
    exists k, (v == inject_Z k * p2 (- frsz F))%Q
    /\ (if sgn F then - 2 ^ (fx_bits F - 1) <= k < 2 ^ (fx_bits F - 1) else 0 <= k < 2 ^ fx_bits F)).
  { intros v [k E] [L U]. exists k. split; auto. rewrite E in L, U. rewrite Emin in L. rewrite Emax in U.
    apply Qmult_le_r in L; auto. apply Qmult_le_r in U; auto. rewrite inj_le_iff in L, U. destruct (sgn F); lia. }
  assert (Rg : forall v, on_grid F v -> on_grid F (rectify F None None v)).
  { intros v G. destruct (rectify_cases F None None v) as [-> |[-> | ->]]; auto. }
  assert (Sg : forall z, on_grid F (fx_scale F (inject_Z z))) by (intros z; exists z; reflexivity).
  assert (Ag : forall u v s, on_grid F u -> on_grid F v -> on_grid F (if s : bool then u - v else u + v)%Q).
  { intros u v s [a Ea] [b Eb]. destruct s; [exists (a - b)|exists (a + b)]; unfold Z.sub; rewrite inject_Z_plus, ?inject_Z_opp, Ea, Eb; ring. }
  destruct c.
  - apply Fin; [apply Rg; auto|apply rectify_bounds; auto].
  - apply Fin; [apply Rg; auto|apply rectify_bounds; auto].
  - exists 0. split; [cbn [fix_value]; change (inject_Z 0) with 0%Q; ring|]. destruct (sgn F); lia.
  - apply Fin; [apply Rg; apply (Ag _ _ true); auto|apply rectify_bounds; auto].
  - apply Fin; [apply Rg; apply (Ag _ _ false); auto|apply rectify_bounds; auto].
  - assert (E : fix_value F None None NearZero d = rectify F None None (fx_scale F (inject_Z (0 - highlow_range (fx_bits F) + d)))).
    { unfold fix_value. rewrite NN by auto. reflexivity. }
    rewrite E. apply Fin; [apply Rg; auto|apply rectify_bounds; auto].
  - apply Fin; [exact (Sg _)|]. apply fix_value_in_bounds; auto; discriminate.
Qed.

(* unsigned near-zero values are scaled twice: not numbers of the format *)
Theorem fix_near_zero_refuted : forall F, sgn F = false -> 1 <= frsz F -> 5 <= fx_bits F ->
  0 <= 1 < fix_bound F None None NearZero /\ ~ on_grid F (fix_value F None None NearZero 1).
Proof.
  intros F S Hf Hb. assert (Hh : 2 <= highlow_range (fx_bits F)).
  { unfold highlow_range. change 2 with (2 ^ 1) at 1. apply Z.pow_le_mono_r; [lia|]. apply Z.div_le_lower_bound; lia. }
  split; [cbn [fix_bound]; rewrite S; lia|]. unfold fix_value. rewrite S.
  assert (P0 : 2 <= 2 ^ fx_bits F) by (change 2 with (2 ^ 1) at 1; apply Z.pow_le_mono_r; lia).
  pose proof (p2_pos (- frsz F)) as Pp.
  assert (E0 : (min_value F None == 0)%Q) by (unfold min_value, raw_min, fx_scale; rewrite S; ring).
  assert (E1 : (max_value F None == (inject_Z (2 ^ fx_bits F) - 1) * p2 (- frsz F))%Q).
  { unfold max_value, raw_max, fx_scale. rewrite S, Z.sub_0_r, <- p2_Z by lia. reflexivity. }
  set (u := fx_scale F (inject_Z 1)). assert (Eu : (u == p2 (- frsz F))%Q) by (unfold u, fx_scale; change (inject_Z 1) with 1%Q; ring).
  assert (Er : (rectify F None None (min_value F None + u) == p2 (- frsz F))%Q).
  { assert (M : (p2 (- frsz F) <= max_value F None)%Q).
    { rewrite E1. setoid_replace (p2 (- frsz F)) with (1 * p2 (- frsz F))%Q at 1 by ring. apply Qmult_le_compat_r; [|lra].
      apply inj_le_iff in P0. change (inject_Z 2) with (2 # 1)%Q in P0. lra. }
    unfold rectify, py_max, py_min.
    destruct (Qle_bool (max_value F None) (min_value F None + u)) eqn:Ea; cbn [negb];
    [destruct (Qle_bool (max_value F None) (min_value F None)) eqn:Eb|destruct (Qle_bool (min_value F None + u) (min_value F None)) eqn:Eb];
    cbn [negb]; rewrite ?Qle_bool_iff in *; rewrite ?Qle_bool_false in *; lra. }
  intros [k E]. unfold fx_scale in E. rewrite Er in E.
  assert (X : (inject_Z k == p2 (- frsz F))%Q).
  { assert (Y : ((inject_Z k - p2 (- frsz F)) * p2 (- frsz F) == 0)%Q) by (rewrite (Qmult_comm (_ - _)); lra).
    apply Qmult_integral in Y. destruct Y; lra. }
  assert (L : (p2 (- frsz F) < 1)%Q) by (rewrite <- p2_0; apply p2_lt; lia).
  assert (0 < k) by (apply inj_lt_iff; change (inject_Z 0) with 0%Q; lra).
  assert (k < 1) by (apply inj_lt_iff; change (inject_Z 1) with 1%Q; lra). lia.
Qed.

(* the zero category ignores the bounds *)
Theorem fix_zero_refuted : forall F lo hi, (0 < lo)%Q ->
  (fix_value F (Some lo) hi ZeroValue 0 < min_value F (Some lo))%Q.
Proof. intros F lo hi H. exact H. Qed.

(* ------------------------------------------------------------------ *)
(* floating-point generator                                             *)
(* ------------------------------------------------------------------ *)
Lemma mant_int : forall F lead field, 1 <= fsz F -> (fp_mant F (inject_Z lead) field == inject_Z (lead * 2 ^ fsz F + field) * p2 (- fsz F))%Q.
Proof.
  intros F lead field Hf. unfold fp_mant. rewrite inject_Z_plus, inject_Z_mult, <- p2_Z by lia.
  setoid_replace ((inject_Z lead * p2 (fsz F) + inject_Z field) * p2 (- fsz F))%Q
    with (inject_Z lead * (p2 (- fsz F) * p2 (fsz F)) + inject_Z field * p2 (- fsz F))%Q by ring.
  rewrite p2_opp. ring.
Qed.

Theorem fp_value_representable : forall F c neg exp field, fmt_ok F -> emin_normal F <= exp <= emax F ->
  0 <= field < 2 ^ fsz F -> representable F (fp_value F c neg exp field).
Proof.
  intros F c neg exp field Hok He Hf. pose proof (pe1_ge F Hok). pose proof (f_pos F Hok). pose proof (e_pos F Hok).
  rewrite emax_eq in He by auto. unfold emin_normal, bias in He.
  assert (P : 2 ^ (fsz F + 1) = 2 * 2 ^ fsz F) by (rewrite Z.pow_add_r by lia; change (2 ^ 1) with 2; lia).
  set (z := (if neg then -1 else 1) : Z).
  assert (Ez : (fsign neg == inject_Z z)%Q) by (unfold z, fsign; destruct neg; reflexivity).
  assert (Az : Z.abs z = 1) by (unfold z; destruct neg; reflexivity).
  assert (G : forall lead e, 0 <= lead <= 1 -> 2 - 2 ^ (esz F - 1) <= e <= 2 ^ (esz F - 1) - 1 ->
    representable F (fp_mant F (inject_Z lead) field * fsign neg * p2 e)%Q).
  { intros lead e Hl Hee. exists (z * (lead * 2 ^ fsz F + field)), (e - fsz F). split; [rewrite Z.abs_mul, Az; nia|]. split; [lia|].
    rewrite mant_int, Ez, inject_Z_mult by lia. unfold Z.sub. rewrite p2_plus. ring. }
  destruct c; unfold fp_value.
  - apply (G 0 (emin_normal F)); [lia|]. unfold emin_normal, bias. lia.
  - apply (G 1 exp); lia.
  - exists (2 ^ fsz F + field), (- fsz F). split; [lia|]. split; [lia|].
    change 1%Q with (inject_Z 1). rewrite mant_int by lia. rewrite Z.mul_1_l. reflexivity.
Qed.

(* a normal draw is in the normal range, a subnormal one strictly below it *)
Theorem fp_value_magnitude : forall F neg exp field, fmt_ok F -> 0 <= field < 2 ^ fsz F ->
  (p2 exp <= Qabs (fp_value F Normal neg exp field))%Q /\ (Qabs (fp_value F Normal neg exp field) < p2 (exp + 1))%Q
  /\ (Qabs (fp_value F Subnormal neg exp field) < p2 (emin_normal F))%Q.
Proof.
  intros F neg exp field Hok Hf. pose proof (f_pos F Hok).
  assert (B : (0 <= inject_Z field * p2 (- fsz F))%Q /\ (inject_Z field * p2 (- fsz F) < 1)%Q).
  { pose proof (p2_pos (- fsz F)). split.
    - apply Qmult_le_0_compat; [|lra]. change 0%Q with (inject_Z 0). rewrite inj_le_iff. lia.
    - rewrite <- (p2_opp (fsz F)), (Qmult_comm (p2 (- fsz F))). apply Qmult_lt_r; auto. rewrite p2_Z, inj_lt_iff by lia. lia. }
  destruct B as [B1 B2].
  assert (A : forall lead e, (0 <= lead)%Q -> (Qabs (fp_mant F lead field * fsign neg * p2 e) == (lead + inject_Z field * p2 (- fsz F)) * p2 e)%Q).
  { intros lead e Hl. rewrite !Qabs_Qmult. rewrite (Qabs_pos (p2 e)) by (pose proof (p2_pos e); lra).
    unfold fp_mant. rewrite (Qabs_pos (lead + _)) by lra. unfold fsign. destruct neg; cbn [Qabs Z.abs]; change (Qabs (-1)) with 1%Q; change (Qabs 1) with 1%Q; ring. }
  unfold fp_value. split; [|split].
  - rewrite A by lra. pose proof (p2_pos exp). setoid_replace (p2 exp) with (1 * p2 exp)%Q at 1 by ring. apply Qmult_le_compat_r; lra.
  - rewrite A, p2_succ by lra. pose proof (p2_pos exp). apply Qmult_lt_r; lra.
  - rewrite A by lra. pose proof (p2_pos (emin_normal F)). setoid_replace (p2 (emin_normal F)) with (1 * p2 (emin_normal F))%Q at 2 by ring. apply Qmult_lt_r; lra.
Qed.

Theorem fp_log_interval_bounds : forall F inf sup neg exp field, (inf <= sup)%Q ->
  (inf <= fp_log_interval F inf sup neg exp field <= sup)%Q.
Proof.
  intros F inf sup neg exp field B. unfold fp_log_interval. set (v := (fp_mant F 1 field * fsign neg * p2 exp)%Q).
  unfold py_min, py_max.
  destruct (Qle_bool v inf) eqn:E1; cbn [negb];
  [destruct (Qle_bool inf sup) eqn:E2|destruct (Qle_bool v sup) eqn:E2]; cbn [negb]; rewrite ?Qle_bool_iff in *; rewrite ?Qle_bool_false in *; lra.
Qed.

Example rand_case :
  (exists m, normalize_map [(1, (1 # 1)%Q); (2, (2 # 1)%Q); (3, (1 # 1)%Q)] = Some m /\ get_category m (3 # 4) = Some 2 /\ get_category m (4 # 5) = Some 3)
  /\ int_value 8 true Standard 5 = Some (-123)
  /\ (fix_value {| isz := 3; frsz := 5; sgn := true |} None None HighValue 1 == 126 # 32)%Q
  /\ (fix_value {| isz := 3; frsz := 5; sgn := false |} None None NearZero 1 == 1 # 1024)%Q
  /\ (fp_value (mkfmt 8 23 24) Normal true 3 (2 ^ 22) == -12)%Q.
Proof.
  split; [eexists; split; [reflexivity|split; reflexivity]|]. repeat split; vm_compute; reflexivity.
Qed.

Print Assumptions normalize_map_correct.
Print Assumptions normalize_map_rejects.
Print Assumptions category_correct.
Print Assumptions category_zero_weight_refuted.
Print Assumptions category_fallback.
Print Assumptions int_value_in_range.
Print Assumptions int_value_refuted.
Print Assumptions int_standard_onto.
Print Assumptions fix_value_in_bounds.
Print Assumptions fix_value_representable.
Print Assumptions fix_near_zero_refuted.
Print Assumptions fix_zero_refuted.
Print Assumptions fp_value_representable.
Print Assumptions fp_value_magnitude.
Print Assumptions fp_log_interval_bounds.
