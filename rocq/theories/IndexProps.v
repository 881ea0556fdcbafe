(* Properties of the table indexing classes (C45). *)
From Coq Require Import ZArith QArith Qround Qabs Bool Lia Lqa Setoid.
From Verif Require Import QUtil FpFormatModel FpFormatSpec FpFormatProofs FpFormatProofs2 FpFormatProps
  RoundSpec RoundProofs RoundRne FixedProps IndexModel.
Open Scope Z_scope.

(* ------------------------------------------------------------------ *)
(* specification: n consecutive intervals [lo i, hi i) tile [a, b)      *)
(* ------------------------------------------------------------------ *)
Definition tiles (lo hi : Z -> Q) (n : Z) (a b : Q) : Prop :=
  (lo 0%Z == a)%Q /\ (hi (n - 1)%Z == b)%Q /\ forall i, 0 <= i < n - 1 -> (hi i == lo (i + 1)%Z)%Q.

Definition in_sub (lo hi : Z -> Q) (n i : Z) (x : Q) : Prop := 0 <= i < n /\ (lo i <= x)%Q /\ (x < hi i)%Q.

(* ------------------------------------------------------------------ *)
(* bits                                                                 *)
(* ------------------------------------------------------------------ *)
Lemma swrap_small : forall n z, 1 <= n -> - 2 ^ (n - 1) <= z < 2 ^ (n - 1) -> swrap n z = z.
Proof.
  intros n z Hn H. unfold swrap. assert (2 ^ n = 2 * 2 ^ (n - 1)) by (rewrite <- Z.pow_succ_r by lia; f_equal; lia).
  rewrite Z.mod_small by lia. lia.
Qed.

Lemma swrap_mod : forall n z, 1 <= n -> swrap n z mod 2 ^ n = z mod 2 ^ n.
Proof.
  intros n z Hn. unfold swrap. rewrite Zminus_mod_idemp_l. f_equal. lia.
Qed.

(* the low bits of a shifted word do not depend on the sign extension *)
Lemma rsh_mask : forall ar n z s k, 0 <= s -> 0 <= k -> s + k <= n ->
  Z.land (rsh ar n z s) (2 ^ k - 1) = (z mod 2 ^ (s + k)) / 2 ^ s.
Proof.
  intros ar n z s k Hs Hk Hn.
  replace (2 ^ k - 1) with (Z.ones k) by (rewrite Z.ones_equiv; lia).
  rewrite Z.land_ones by lia. unfold rsh.
  assert (E : forall y, Z.shiftr y s mod 2 ^ k = (y mod 2 ^ (s + k)) / 2 ^ s).
  { intros y. rewrite Z.shiftr_div_pow2 by lia. rewrite Z.pow_add_r by lia.
    pose proof (pow2_pos s Hs). pose proof (pow2_pos k Hk).
    rewrite Z.rem_mul_r by lia. rewrite Z.add_comm, Z.mul_comm, Z.div_add_l by lia.
    rewrite (Z.div_small (y mod 2 ^ s)) by (apply Z.mod_pos_bound; lia). lia. }
  destruct ar; rewrite E; auto.
  f_equal. replace n with ((s + k) + (n - (s + k))) by lia. rewrite Z.pow_add_r by lia.
  pose proof (pow2_pos (s + k) ltac:(lia)). pose proof (pow2_pos (n - (s + k)) ltac:(lia)).
  rewrite Z.rem_mul_r by lia. rewrite Z.mul_comm, Z_mod_plus_full. apply Zmod_mod.
Qed.

(* splitting a trailing significand of f bits in its k high bits and the rest *)
Lemma high_bits : forall f k M, 0 <= k <= f -> 0 <= M < 2 ^ f ->
  let i := M / 2 ^ (f - k) in
  0 <= i < 2 ^ k /\ (inject_Z i * p2 (- k) <= inject_Z M * p2 (- f))%Q
  /\ (inject_Z M * p2 (- f) < inject_Z (i + 1) * p2 (- k))%Q.
Proof.
  intros f k M Hk HM i. pose proof (pow2_pos (f - k) ltac:(lia)) as P. pose proof (pow2_pos k ltac:(lia)) as Pk.
  assert (E : 2 ^ f = 2 ^ k * 2 ^ (f - k)) by (rewrite <- Z.pow_add_r by lia; f_equal; lia).
  pose proof (Z.mul_div_le M (2 ^ (f - k)) P) as L1. pose proof (Z.mul_succ_div_gt M (2 ^ (f - k)) P) as L2.
  fold i in L1, L2.
  assert (S : (p2 (- k) == inject_Z (2 ^ (f - k)) * p2 (- f))%Q).
  { rewrite p2_prec by lia. replace (f - k + - f) with (- k) by lia. reflexivity. }
  split.
  { split; [apply Z.div_pos; lia|]. apply Z.div_lt_upper_bound; lia. }
  rewrite S. pose proof (p2_pos (- f)) as Pf.
  split.
  - rewrite Qmult_assoc, <- inject_Z_mult. apply Qmult_le_compat_r; [|lra]. rewrite <- Zle_Qle. lia.
  - rewrite Qmult_assoc, <- inject_Z_mult. apply Qmult_lt_r; auto. rewrite <- Zlt_Qlt. lia.
Qed.

(* ------------------------------------------------------------------ *)
(* upper bits of the mantissa                                           *)
(* ------------------------------------------------------------------ *)
Theorem mantissa_tiles : forall k, 0 <= k -> tiles (sm_lo k) (sm_hi k) (sm_split_num k) 1 2.
Proof.
  intros k Hk. unfold tiles, sm_lo, sm_hi, sm_split_num. split; [change (inject_Z 0) with 0%Q; ring|]. split.
  - replace (2 ^ k - 1 + 1) with (2 ^ k) by lia. rewrite p2_prec by lia. replace (k + - k) with 0 by lia. reflexivity.
  - intros i Hi. reflexivity.
Qed.

(* every normal input, whatever its sign and exponent: the index designates
   the sub-interval of [1, 2) where its significand lies *)
Theorem mantissa_index_correct : forall F c s E M k ar, fmt_ok F -> bit_size F = 32 \/ bit_size F = 64 ->
  has_fields F c s E M -> 0 < E < 2 ^ esz F - 1 -> 0 <= k <= fsz F ->
  exists i q, mantissa_msb_index ar F k c = Some i
  /\ get_value_from_integer_coding F c = Num q
  /\ in_sub (sm_lo k) (sm_hi k) (sm_split_num k) i (Qabs q / p2 (E - ieee_bias F)).
Proof.
  intros F c s E M k ar Hok Hn HF HE Hk. destruct Hok as [He Hf]. pose proof (fp_decode_is_ieee F c s E M (conj He Hf) HF) as D.
  destruct HF as (Hc & HE' & HM).
  destruct (get_value_from_integer_coding F c) as [q| | | | | |] eqn:Dc; inversion D as [| | | | | |s' E' M' q' HE2 Eq|]; subst; try lia.
  exists (M / 2 ^ (fsz F - k)), q. split.
  { unfold mantissa_msb_index. assert (B : (bit_size F =? 32) || (bit_size F =? 64) = true).
    { apply orb_true_iff. destruct Hn; [left|right]; apply Z.eqb_eq; auto. }
    rewrite B. f_equal. assert (N : 1 <= bit_size F) by (unfold bit_size; lia).
    rewrite rsh_mask by (unfold bit_size; lia). replace (fsz F - k + k) with (fsz F) by lia. f_equal.
    set (c := (if s then 2 ^ (esz F + fsz F) else 0) + E * 2 ^ fsz F + M) in *.
    assert (Em : swrap (bit_size F) c mod 2 ^ fsz F = c mod 2 ^ fsz F).
    { assert (Hd : forall y, (y mod 2 ^ bit_size F) mod 2 ^ fsz F = y mod 2 ^ fsz F).
      { intros y. unfold bit_size. replace (1 + esz F + fsz F) with (fsz F + (1 + esz F)) by lia. rewrite Z.pow_add_r by lia.
        pose proof (pow2_pos (fsz F) ltac:(lia)). pose proof (pow2_pos (1 + esz F) ltac:(lia)).
        rewrite Z.rem_mul_r by lia. rewrite Z.mul_comm, Z_mod_plus_full. apply Zmod_mod. }
      rewrite <- Hd, swrap_mod by auto. apply Hd. }
    rewrite Em. unfold c. destruct s.
    - rewrite Z.pow_add_r by lia. replace (2 ^ esz F * 2 ^ fsz F + E * 2 ^ fsz F + M) with (M + (2 ^ esz F + E) * 2 ^ fsz F) by ring.
      rewrite Z_mod_plus_full. apply Z.mod_small; auto.
    - replace (0 + E * 2 ^ fsz F + M) with (M + E * 2 ^ fsz F) by ring. rewrite Z_mod_plus_full. apply Z.mod_small; auto. }
  split; auto.
  pose proof (high_bits (fsz F) k M Hk HM) as (I & L1 & L2). cbv zeta in *.
  set (i := M / 2 ^ (fsz F - k)) in *.
  assert (A : (Qabs q / p2 (E - ieee_bias F) == 1 + inject_Z M * p2 (- fsz F))%Q).
  { rewrite Eq. pose proof (p2_pos (E - ieee_bias F)) as P. pose proof (p2_pos (- fsz F)) as Pf.
    assert (NM : (0 <= inject_Z M * p2 (- fsz F))%Q).
    { apply Qmult_le_0_compat; [|lra]. change 0%Q with (inject_Z 0). rewrite <- Zle_Qle. lia. }
    rewrite !Qabs_Qmult. rewrite (Qabs_pos (p2 _)) by lra. rewrite (Qabs_pos (1 + _)%Q) by lra.
    destruct s; [change (Qabs (-1)) with 1%Q|change (Qabs 1) with 1%Q]; field; apply p2_nz. }
  unfold in_sub, sm_lo, sm_hi, sm_split_num. rewrite A. split; auto. split; lra.
Qed.

(* ------------------------------------------------------------------ *)
(* exponent and upper bits of the mantissa                              *)
(* ------------------------------------------------------------------ *)
Theorem fp_tiles : forall low mx f, 0 <= f -> low <= mx ->
  tiles (fp_lo low f) (fp_hi low f) (fp_split_num low mx f) (p2 low) (p2 (mx + 1)).
Proof.
  intros low mx f Hf H. pose proof (pow2_pos f Hf) as P. unfold tiles, fp_lo, fp_hi, fp_split_num.
  assert (One : (inject_Z (2 ^ f) * p2 (- f) == 1)%Q) by (rewrite p2_prec by lia; replace (f + - f) with 0 by lia; reflexivity).
  split; [|split].
  - rewrite Z.mod_0_l, Z.div_0_l by lia. change (inject_Z 0) with 0%Q. rewrite Z.add_0_l. ring.
  - replace ((mx - low + 1) * 2 ^ f - 1) with (2 ^ f - 1 + (mx - low) * 2 ^ f) by ring.
    rewrite Z_mod_plus_full, Z.div_add by lia. rewrite Z.mod_small, Z.div_small by lia.
    replace (2 ^ f - 1 + 1) with (2 ^ f) by lia. rewrite One. replace (0 + (mx - low) + low) with mx by lia.
    rewrite p2_succ. ring.
  - intros i Hi. pose proof (Z.mod_pos_bound i _ P) as B. pose proof (Z.div_mod i (2 ^ f) ltac:(lia)) as DM.
    destruct (Z.eq_dec (i mod 2 ^ f) (2 ^ f - 1)) as [E|E].
    + assert (E1 : i + 1 = 0 + (i / 2 ^ f + 1) * 2 ^ f) by lia. rewrite E1.
      rewrite Z_mod_plus_full, Z.div_add by lia. rewrite Z.mod_0_l, Z.div_0_l by lia. rewrite E.
      replace (2 ^ f - 1 + 1) with (2 ^ f) by lia. rewrite One. change (inject_Z 0) with 0%Q.
      replace (0 + (i / 2 ^ f + 1) + low) with (i / 2 ^ f + low + 1) by lia. rewrite p2_succ. ring.
    + assert (E1 : i + 1 = (i mod 2 ^ f + 1) + i / 2 ^ f * 2 ^ f) by lia. rewrite E1.
      rewrite Z_mod_plus_full, Z.div_add by lia. rewrite (Z.mod_small (i mod 2 ^ f + 1)) by lia.
      rewrite (Z.div_small (i mod 2 ^ f + 1)) by lia. rewrite Z.add_0_l. reflexivity.
Qed.

Lemma coding_p2 : forall F low, fmt_ok F -> sollya_ok F -> emin_normal F <= low <= emax F ->
  get_integer_coding F (Num (p2 low)) = Some ((low + ieee_bias F) * 2 ^ fsz F).
Proof.
  intros F low Hok Hs Hl. pose proof Hok as [He Hf].
  assert (Eb : bias F = - ieee_bias F) by (unfold bias, ieee_bias; lia).
  assert (H2 : 2 ^ esz F = 2 * 2 ^ (esz F - 1)) by (rewrite <- Z.pow_succ_r by lia; f_equal; lia).
  unfold emin_normal, emax in Hl. rewrite Eb in Hl. unfold ieee_bias in *.
  pose proof (pow2_pos (fsz F) ltac:(lia)) as Pf.
  destruct (fp_encode_decode F (p2 low) Hok Hs) as (c & q & Ec & Bc & Dc & Eq).
  { exists (2 ^ fsz F), (low - fsz F). split; [rewrite Z.abs_eq by lia; apply Z.pow_lt_mono_r; lia|]. split; [lia|].
    rewrite p2_prec by lia. replace (fsz F + (low - fsz F)) with low by lia. reflexivity. }
  { apply p2_nz. }
  destruct (fp_word_has_fields F c Hok Bc) as (s & E & M & HF).
  pose proof (fp_decode_is_ieee F c s E M Hok HF) as D. rewrite Dc in D. destruct HF as (Hc & HE & HM).
  pose proof (p2_pos low) as Pl. pose proof (p2_pos (- fsz F)) as Pmf.
  assert (Mf : (0 <= inject_Z M * p2 (- fsz F))%Q /\ (inject_Z M * p2 (- fsz F) < 1)%Q).
  { split; [apply Qmult_le_0_compat; [|lra]; change 0%Q with (inject_Z 0); rewrite <- Zle_Qle; lia|].
    assert (One : (inject_Z (2 ^ fsz F) * p2 (- fsz F) == 1)%Q) by (rewrite p2_prec by lia; replace (fsz F + - fsz F) with 0 by lia; reflexivity).
    rewrite <- One. apply Qmult_lt_r; auto. rewrite <- Zlt_Qlt. lia. }
  set (m := (inject_Z M * p2 (- fsz F))%Q) in *.
  rewrite Ec. f_equal.
  inversion D as [| | | | | |s' E' M' q' HE2 Eq2|s' M' q' NM Eq2]; subst.
  - (* normal *) rewrite Eq in Eq2. fold m in Eq2. unfold ieee_bias in Eq2. pose proof (p2_pos (E - (2 ^ (esz F - 1) - 1))) as PE.
    set (pe := p2 (E - (2 ^ (esz F - 1) - 1))) in *.
    assert (PM : (0 < pe * (1 + m))%Q) by (apply Qmult_lt_0_compat; lra).
    destruct s; [exfalso; lra|].
    assert (X : low = E - (2 ^ (esz F - 1) - 1)).
    { apply (binade_unique (p2 low)); [lra|apply p2_lt; lia| |].
      - fold pe. assert (pe * 1 <= pe * (1 + m))%Q; [|lra]. rewrite !(Qmult_comm pe). apply Qmult_le_compat_r; lra.
      - rewrite p2_succ. fold pe. assert (pe * (1 + m) < pe * 2)%Q; [|lra]. rewrite !(Qmult_comm pe). apply Qmult_lt_r; lra. }
    assert (pe * m == 0)%Q by (unfold pe in *; rewrite <- X in *; lra).
    assert (M0 : M = 0).
    { apply Qmult_integral in H. destruct H as [H|H]; [lra|]. unfold m in H. apply Qmult_integral in H. destruct H as [H|H]; [|lra].
      apply inject_Z_injective. exact H. }
    subst M. lia.
  - (* subnormal *) exfalso. rewrite Eq in Eq2. fold m in Eq2. unfold ieee_bias in Eq2.
    pose proof (p2_le (1 - (2 ^ (esz F - 1) - 1)) low ltac:(lia)) as L. pose proof (p2_pos (1 - (2 ^ (esz F - 1) - 1))) as PE.
    set (pe := p2 (1 - (2 ^ (esz F - 1) - 1))) in *.
    assert (pe * m < pe * 1)%Q by (rewrite !(Qmult_comm pe); apply Qmult_lt_r; lra).
    assert (0 <= pe * m)%Q by (apply Qmult_le_0_compat; lra).
    destruct s; lra.
Qed.

(* every input in [2^low, 2^(mx+1)) *)
Theorem fp_index_correct : forall F c low mx f ar x, fmt_ok F -> sollya_ok F ->
  0 <= c < 2 ^ bit_size F -> get_value_from_integer_coding F c = Num x ->
  emin_normal F <= low <= mx -> mx <= emax F -> 0 <= f <= fsz F ->
  (p2 low <= x)%Q -> (x < p2 (mx + 1))%Q ->
  exists i, fp_index ar F low mx f c = Some i
  /\ in_sub (fp_lo low f) (fp_hi low f) (fp_split_num low mx f) i x.
Proof.
  intros F c low mx f ar x Hok Hs Bc Dc Hlow Hmx Hf L U.
  pose proof Hok as [He Hf1].
  destruct (fp_word_has_fields F c Hok Bc) as (s & E & M & HF).
  pose proof (fp_decode_is_ieee F c s E M Hok HF) as D. rewrite Dc in D. pose proof HF as (Hc & HE & HM).
  assert (Eb : bias F = - ieee_bias F) by (unfold bias, ieee_bias; lia).
  assert (H2 : 2 ^ esz F = 2 * 2 ^ (esz F - 1)) by (rewrite <- Z.pow_succ_r by lia; f_equal; lia).
  pose proof (coding_p2 F low Hok Hs ltac:(lia)) as Off.
  unfold emin_normal, emax in *. rewrite Eb in *. 
  pose proof (pow2_pos (fsz F) ltac:(lia)) as Pf. pose proof (p2_pos (- fsz F)) as Pmf. pose proof (p2_pos low) as Pl.
  assert (Mf : (0 <= inject_Z M * p2 (- fsz F))%Q /\ (inject_Z M * p2 (- fsz F) < 1)%Q).
  { split; [apply Qmult_le_0_compat; [|lra]; change 0%Q with (inject_Z 0); rewrite <- Zle_Qle; lia|].
    assert (One : (inject_Z (2 ^ fsz F) * p2 (- fsz F) == 1)%Q) by (rewrite p2_prec by lia; replace (fsz F + - fsz F) with 0 by lia; reflexivity).
    rewrite <- One. apply Qmult_lt_r; auto. rewrite <- Zlt_Qlt. lia. }
  assert (Nrm : s = false /\ low <= E - ieee_bias F <= mx /\ (x == p2 (E - ieee_bias F) * (1 + inject_Z M * p2 (- fsz F)))%Q).
  { inversion D as [| | | | | |s' E' M' q' HE2 Eq2|s' M' q' NM Eq2]; subst.
    - set (m := (inject_Z M * p2 (- fsz F))%Q) in *. set (b := ieee_bias F) in *.
      pose proof (p2_pos (E - b)) as PE.
      assert (PM : (0 < p2 (E - b) * (1 + m))%Q) by (apply Qmult_lt_0_compat; lra).
      destruct s; [exfalso; lra|].
      assert (B1 : (p2 (E - b) <= x)%Q).
      { assert (p2 (E - b) * 1 <= p2 (E - b) * (1 + m))%Q; [|lra]. rewrite !(Qmult_comm (p2 (E - b))). apply Qmult_le_compat_r; lra. }
      assert (B2 : (x < p2 (E - b + 1))%Q).
      { rewrite p2_succ. assert (p2 (E - b) * (1 + m) < p2 (E - b) * 2)%Q; [|lra]. rewrite !(Qmult_comm (p2 (E - b))). apply Qmult_lt_r; lra. }
      split; auto. split; [|lra].
      assert (low < E - b + 1) by (apply p2_lt_inv; lra). assert (E - b < mx + 1) by (apply p2_lt_inv; lra). lia.
    - exfalso. set (m := (inject_Z M * p2 (- fsz F))%Q) in *.
      pose proof (p2_le (1 - ieee_bias F) low ltac:(unfold ieee_bias in *; lia)) as L1. pose proof (p2_pos (1 - ieee_bias F)) as PE.
      set (pe := p2 (1 - ieee_bias F)) in *.
      assert (pe * m < pe * 1)%Q by (rewrite !(Qmult_comm pe); apply Qmult_lt_r; lra).
      assert (0 <= pe * m)%Q by (apply Qmult_le_0_compat; lra).
      destruct s; lra. }
  destruct Nrm as (-> & HEr & Ex).
  set (b := ieee_bias F) in *. set (j := E - b - low).
  pose proof (high_bits (fsz F) f M Hf HM) as (I & L1 & L2). cbv zeta in *. set (h := M / 2 ^ (fsz F - f)) in *.
  pose proof (pow2_pos f ltac:(lia)) as P2f.
  assert (Ej : (j * 2 ^ f + h) mod 2 ^ f = h /\ (j * 2 ^ f + h) / 2 ^ f = j).
  { rewrite Z.add_comm, Z_mod_plus_full, Z.div_add by lia. rewrite Z.mod_small, Z.div_small by lia. lia. }
  destruct Ej as [Ej1 Ej2].
  exists (j * 2 ^ f + h). split.
  - unfold fp_index. rewrite Off. f_equal.
    assert (Nb : bit_size F = 1 + esz F + fsz F) by reflexivity.
    assert (PB : 2 ^ (bit_size F - 1) = 2 ^ esz F * 2 ^ fsz F) by (rewrite Nb, <- Z.pow_add_r by lia; f_equal; lia).
    assert (Cb : 0 <= c < 2 ^ (bit_size F - 1)) by (rewrite PB, Hc; nia).
    rewrite (swrap_small _ c) by lia.
    assert (Ed : c - (low + b) * 2 ^ fsz F = j * 2 ^ fsz F + M) by (rewrite Hc; unfold j; ring).
    rewrite Ed. assert (Jb : 0 <= j <= mx - low) by (unfold j; lia).
    assert (Jr : 0 <= j * 2 ^ fsz F + M < 2 ^ (bit_size F - 1)) by (rewrite <- Ed; unfold b, ieee_bias in *; nia).
    rewrite swrap_small by lia.
    pose proof (Z.log2_up_nonneg (mx - low + 1)) as LN. fold (fp_exp_bits low mx) in LN.
    assert (LU : mx - low + 1 <= 2 ^ fp_exp_bits low mx).
    { unfold fp_exp_bits. destruct (Z.eq_dec (mx - low + 1) 1) as [-> |]; [cbn; lia|].
      apply Z.log2_up_spec. lia. }
    assert (LE : fp_exp_bits low mx <= esz F).
    { unfold fp_exp_bits. apply Z.log2_up_le_pow2; [lia|]. unfold b, ieee_bias in *. lia. }
    rewrite rsh_mask by (rewrite ?Nb; lia).
    rewrite Z.mod_small.
    + replace (fsz F) with (f + (fsz F - f)) at 1 by lia. rewrite Z.pow_add_r by lia.
      rewrite Z.mul_assoc. rewrite Z.div_add_l by (pose proof (pow2_pos (fsz F - f) ltac:(lia)); lia). reflexivity.
    + replace (fsz F - f + (fp_exp_bits low mx + f)) with (fp_exp_bits low mx + fsz F) by lia.
      rewrite Z.pow_add_r by lia. nia.
  - unfold in_sub, fp_lo, fp_hi, fp_split_num. rewrite Ej1, Ej2. replace (j + low) with (E - b) by (unfold j; lia).
    split. { unfold j. nia. }
    rewrite Ex. pose proof (p2_pos (E - b)). rewrite (Qmult_comm (p2 (E - b))). split.
    + apply Qmult_le_compat_r; lra.
    + apply Qmult_lt_r; auto. lra.
Qed.

(* (offset, [0; size]): the offset input lies in the advertised interval *)
Theorem offset_input_in_range : forall lo hi n i x, in_sub lo hi n i x ->
  let '(off, (a, b)) := offseted (lo i) (hi i) in (a <= x - off)%Q /\ (x - off < b)%Q.
Proof. intros lo hi n i x (_ & H1 & H2). cbn. split; lra. Qed.

(* ------------------------------------------------------------------ *)
(* uniform division                                                     *)
(* ------------------------------------------------------------------ *)
Definition nearest_int (ni : Q -> Z) : Prop := forall q, (Qabs (inject_Z (ni q) - q) <= 1 # 2)%Q.

Lemma inj_pos : forall n, 0 < n -> (0 < inject_Z n)%Q.
Proof. intros. change 0%Q with (inject_Z 0). rewrite <- Zlt_Qlt. auto. Qed.

Theorem uniform_tiles : forall lo hi n, 0 < n -> tiles (uni_lo lo hi n) (uni_hi lo hi n) n lo hi.
Proof.
  intros lo hi n Hn. pose proof (inj_pos n Hn). unfold tiles, uni_lo, uni_hi, uni_size. split; [|split].
  - change (inject_Z 0) with 0%Q. ring.
  - replace (n - 1 + 1) with n by lia. field. lra.
  - intros i _. reflexivity.
Qed.

Lemma uniform_core : forall lo hi n x i0 t, 0 < n -> (lo < hi)%Q -> (lo <= x)%Q -> (x <= hi)%Q ->
  (t == (x - lo) * (inject_Z n / (hi - lo)))%Q -> (Qabs (inject_Z i0 - t) <= 1)%Q ->
  let i := Z.max 0 (Z.min i0 (n - 1)) in
  0 <= i < n /\ (- uni_size lo hi n <= x - uni_lo lo hi n i)%Q /\ (x - uni_lo lo hi n i <= uni_size lo hi n)%Q.
Proof.
  intros lo hi n x i0 t Hn Hlh L U Et D i. pose proof (inj_pos n Hn) as Pn.
  assert (Ps : (0 < uni_size lo hi n)%Q) by (unfold uni_size; apply Qlt_shift_div_l; lra).
  assert (T0 : (0 <= t)%Q).
  { rewrite Et. apply Qmult_le_0_compat; [lra|]. apply Qle_shift_div_l; lra. }
  assert (Tn : (t <= inject_Z n)%Q).
  { rewrite Et. setoid_replace (inject_Z n) with ((hi - lo) * (inject_Z n / (hi - lo)))%Q at 2 by (field; lra).
    apply Qmult_le_compat_r; [lra|]. apply Qle_shift_div_l; lra. }
  assert (Ex : (x - uni_lo lo hi n i == (t - inject_Z i) * uni_size lo hi n)%Q).
  { rewrite Et. unfold uni_lo, uni_size. field. split; lra. }
  apply Qabs_le_iff in D. destruct D as [D1 D2].
  split; [unfold i; lia|].
  assert (K : (- (1) <= t - inject_Z i)%Q /\ (t - inject_Z i <= 1)%Q).
  { destruct (Z.lt_ge_cases i0 0) as [C|C].
    - assert (Ei : i = 0) by (unfold i; lia). rewrite Ei. change (inject_Z 0) with 0%Q.
      assert (inject_Z i0 <= -1)%Q by (change (-1)%Q with (inject_Z (-1)); rewrite <- Zle_Qle; lia). lra.
    - destruct (Z.le_gt_cases i0 (n - 1)) as [C'|C'].
      + assert (Ei : i = i0) by (unfold i; lia). rewrite Ei. lra.
      + assert (Ei : i = n - 1) by (unfold i; lia). rewrite Ei.
        assert (inject_Z n <= inject_Z i0)%Q by (rewrite <- Zle_Qle; lia).
        assert (En : (inject_Z (n - 1) == inject_Z n - 1)%Q) by (unfold Z.sub; rewrite inject_Z_plus; reflexivity).
        rewrite En. lra. }
  rewrite Ex. split.
  - setoid_replace (- uni_size lo hi n)%Q with (- (1) * uni_size lo hi n)%Q by ring. apply Qmult_le_compat_r; lra.
  - setoid_replace (uni_size lo hi n) with (1 * uni_size lo hi n)%Q at 2 by ring. apply Qmult_le_compat_r; lra.
Qed.

(* the index node computed with exact arithmetic: the offset input is in the
   interval [-size, size] advertised by get_offseted_sub_interval *)
Theorem uniform_index_exact : forall ni lo hi n x, nearest_int ni -> 0 < n -> (lo < hi)%Q -> (lo <= x)%Q -> (x <= hi)%Q ->
  let i := uni_index ni (fun q => q) lo hi n x in
  0 <= i < n /\ let '(off, (a, b)) := uni_offseted lo hi n i in (a <= x - off)%Q /\ (x - off <= b)%Q.
Proof.
  intros ni lo hi n x Hni Hn Hlh L U i.
  pose proof (Hni ((x - lo) * (inject_Z n / (hi - lo)))%Q) as D.
  pose proof (uniform_core lo hi n x _ _ Hn Hlh L U (Qeq_refl _) ltac:(eapply Qle_trans; [exact D|discriminate])) as (B & K1 & K2).
  change (Z.max 0 (Z.min (ni ((x - lo) * (inject_Z n / (hi - lo)))%Q) (n - 1))) with i in *.
  split; auto. unfold uni_offseted.
  assert (Es : (uni_hi lo hi n i - uni_lo lo hi n i == uni_size lo hi n)%Q).
  { unfold uni_hi, uni_lo. rewrite inject_Z_plus. change (inject_Z 1) with 1%Q. ring. }
  rewrite Es. split; auto.
Qed.

(* and with every operation rounded to nearest in a format of precision p, as
   long as there are at most 2^(p-3) sub-intervals *)
Theorem uniform_index_rounded : forall F rnd ni lo hi n x, 3 <= prec F -> emin F = None -> nearest_in F rnd ->
  nearest_int ni -> 0 < n <= 2 ^ (prec F - 3) -> inF F lo -> inF F x -> (lo < hi)%Q -> (lo <= x)%Q -> (x <= hi)%Q ->
  let i := uni_index ni rnd lo hi n x in
  0 <= i < n /\ let '(off, (a, b)) := uni_offseted lo hi n i in (a <= x - off)%Q /\ (x - off <= b)%Q.
Proof.
  intros F rnd ni lo hi n x Hp Hinf Hr Hni [Hn Hn2] Ilo Ix Hlh L U i.
  assert (Hp1 : 1 <= prec F) by lia.
  set (u := p2 (- prec F)). assert (Pu : (0 < u)%Q) by apply p2_pos.
  assert (Un : (8 * (u * inject_Z n) <= 1)%Q).
  { assert (inject_Z n <= p2 (prec F - 3))%Q by (rewrite p2_Z by lia; rewrite <- Zle_Qle; auto).
    assert (E : (8 * (u * p2 (prec F - 3)) == 1)%Q).
    { unfold u. rewrite <- p2_plus. replace (- prec F + (prec F - 3)) with (-3) by lia. reflexivity. }
    assert (u * inject_Z n <= u * p2 (prec F - 3))%Q by (rewrite !(Qmult_comm u); apply Qmult_le_compat_r; lra). lra. }
  assert (U8 : (8 * u <= 1)%Q).
  { assert (1 <= inject_Z n)%Q by (change 1%Q with (inject_Z 1); rewrite <- Zle_Qle; lia).
    assert (u * 1 <= u * inject_Z n)%Q by (rewrite !(Qmult_comm u); apply Qmult_le_compat_r; lra). lra. }
  pose proof (inj_pos n Hn) as Pn.
  set (d := (x - lo)%Q) in *. set (r := (inject_Z n / (hi - lo))%Q).
  assert (Pd : (0 <= d)%Q) by (unfold d; lra). assert (Pr : (0 < r)%Q) by (unfold r; apply Qlt_shift_div_l; lra).
  set (t := (d * r)%Q). assert (Pt : (0 <= t)%Q) by (apply Qmult_le_0_compat; lra).
  assert (Tn : (t <= inject_Z n)%Q).
  { unfold t, r. setoid_replace (inject_Z n) with ((hi - lo) * (inject_Z n / (hi - lo)))%Q at 2 by (field; lra).
    apply Qmult_le_compat_r; [unfold d; lra|]. apply Qle_shift_div_l; lra. }
  set (d' := rnd (x - rnd lo)%Q). set (r' := rnd r).
  assert (Ed : (Qabs (d' - d) <= u * d)%Q).
  { unfold d'. rewrite (rnd_comp F rnd Hr (x - rnd lo) d) by (unfold d; rewrite (rnd_id F rnd Hr lo) by auto; reflexivity).
    pose proof (rnd_rel F Hp1 rnd Hr d Hinf) as R. fold u in R. rewrite (Qabs_pos d) in R by auto. exact R. }
  assert (Er : (Qabs (r' - r) <= u * r)%Q).
  { pose proof (rnd_rel F Hp1 rnd Hr r Hinf) as R. fold u r' in R. rewrite (Qabs_pos r) in R by lra. exact R. }
  set (a := (d' - d)%Q) in *. set (b := (r' - r)%Q) in *.
  set (ut := (u * t)%Q). set (uut := (u * ut)%Q). set (uuut := (u * uut)%Q).
  assert (Put : (0 <= ut)%Q) by (apply Qmult_le_0_compat; lra).
  assert (Puut : (0 <= uut)%Q) by (apply Qmult_le_0_compat; lra).
  assert (U2 : (8 * uut <= ut)%Q) by (unfold uut; assert (8 * u * ut <= 1 * ut)%Q by (apply Qmult_le_compat_r; auto); lra).
  assert (U3 : (8 * uuut <= uut)%Q) by (unfold uuut; assert (8 * u * uut <= 1 * uut)%Q by (apply Qmult_le_compat_r; auto); lra).
  assert (U1 : (8 * ut <= 1)%Q).
  { unfold ut. assert (u * t <= u * inject_Z n)%Q by (rewrite !(Qmult_comm u); apply Qmult_le_compat_r; lra). lra. }
  assert (Ep : (Qabs (d' * r' - t) <= 2 * ut + uut)%Q).
  { setoid_replace (d' * r' - t)%Q with (a * r + (d * b + a * b))%Q by (unfold a, b, t; ring).
    assert (A1 : (Qabs (a * r) <= ut)%Q).
    { rewrite Qabs_Qmult, (Qabs_pos r) by lra. unfold ut, t. rewrite Qmult_assoc. apply Qmult_le_compat_r; lra. }
    assert (A2 : (Qabs (d * b) <= ut)%Q).
    { rewrite Qabs_Qmult, (Qabs_pos d) by lra. unfold ut, t. setoid_replace (u * (d * r))%Q with (u * r * d)%Q by ring.
      rewrite (Qmult_comm d). apply Qmult_le_compat_r; lra. }
    assert (A3 : (Qabs (a * b) <= uut)%Q).
    { rewrite Qabs_Qmult. unfold uut, ut, t. setoid_replace (u * (u * (d * r)))%Q with ((u * d) * (u * r))%Q by ring.
      apply Qle_trans with (u * d * Qabs b)%Q; [apply Qmult_le_compat_r; auto; apply Qabs_nonneg|].
      rewrite !(Qmult_comm (u * d)). apply Qmult_le_compat_r; auto. apply Qmult_le_0_compat; lra. }
    eapply Qle_trans; [apply Qabs_triangle|]. pose proof (Qabs_triangle (d * b) (a * b)). lra. }
  set (t' := rnd (d' * r')%Q).
  assert (Et : (Qabs (t' - t) <= 1 # 2)%Q).
  { pose proof (rnd_rel F Hp1 rnd Hr (d' * r') Hinf) as R. fold u t' in R.
    assert (B : (Qabs (d' * r') <= t + (2 * ut + uut))%Q).
    { setoid_replace (d' * r')%Q with (t + (d' * r' - t))%Q by ring. eapply Qle_trans; [apply Qabs_triangle|]. rewrite (Qabs_pos t) by auto. lra. }
    assert (R' : (Qabs (t' - d' * r') <= ut + 2 * uut + uuut)%Q).
    { eapply Qle_trans; [exact R|]. apply Qle_trans with (u * (t + (2 * ut + uut)))%Q; [rewrite !(Qmult_comm u); apply Qmult_le_compat_r; lra|].
      unfold uuut, uut, ut. lra. }
    setoid_replace (t' - t)%Q with ((t' - d' * r') + (d' * r' - t))%Q by ring.
    eapply Qle_trans; [apply Qabs_triangle|]. lra. }
  pose proof (Hni t') as D.
  assert (D1 : (Qabs (inject_Z (ni t') - t) <= 1)%Q).
  { setoid_replace (inject_Z (ni t') - t)%Q with ((inject_Z (ni t') - t') + (t' - t))%Q by ring.
    eapply Qle_trans; [apply Qabs_triangle|]. lra. }
  pose proof (uniform_core lo hi n x (ni t') t Hn Hlh L U (Qeq_refl _) D1) as (B & K1 & K2).
  change (Z.max 0 (Z.min (ni t') (n - 1))) with i in *.
  split; auto. unfold uni_offseted.
  assert (Es : (uni_hi lo hi n i - uni_lo lo hi n i == uni_size lo hi n)%Q).
  { unfold uni_hi, uni_lo. rewrite inject_Z_plus. change (inject_Z 1) with 1%Q. ring. }
  rewrite Es. split; auto.
Qed.

(* but the input is not in the sub-interval of that index: rounding to the
   nearest integer instead of down *)
Theorem uniform_sub_interval_refuted : forall ni lo hi n, nearest_int ni -> 2 <= n -> (lo < hi)%Q ->
  exists x, (lo <= x)%Q /\ (x <= hi)%Q
  /\ ~ in_sub (uni_lo lo hi n) (uni_hi lo hi n) n (uni_index ni (fun q => q) lo hi n x) x.
Proof.
  intros ni lo hi n Hni Hn Hlh. pose proof (inj_pos n ltac:(lia)) as Pn.
  assert (Ps : (0 < uni_size lo hi n)%Q) by (unfold uni_size; apply Qlt_shift_div_l; lra).
  assert (Nn : (2 <= inject_Z n)%Q) by (change 2%Q with (inject_Z 2); rewrite <- Zle_Qle; auto).
  assert (Sn : (uni_size lo hi n * inject_Z n == hi - lo)%Q) by (unfold uni_size; field; lra).
  exists (lo + (3 # 4) * uni_size lo hi n)%Q. split; [lra|]. split.
  { assert (uni_size lo hi n * 2 <= uni_size lo hi n * inject_Z n)%Q by (rewrite !(Qmult_comm (uni_size lo hi n)); apply Qmult_le_compat_r; lra). lra. }
  set (x := (lo + (3 # 4) * uni_size lo hi n)%Q).
  assert (Et : ((x - lo) * (inject_Z n / (hi - lo)) == 3 # 4)%Q) by (unfold x, uni_size; field; split; lra).
  unfold uni_index. pose proof (Hni ((x - lo) * (inject_Z n / (hi - lo)))%Q) as D.
  set (k := ni ((x - lo) * (inject_Z n / (hi - lo)))%Q) in *. rewrite Et in D. apply Qabs_le_iff in D. destruct D as [D1 D2].
  assert (K1 : 0 < k) by (rewrite Zlt_Qlt; change (inject_Z 0) with 0%Q; lra).
  assert (K2 : k < 2) by (rewrite Zlt_Qlt; change (inject_Z 2) with 2%Q; lra).
  replace (Z.max 0 (Z.min k (n - 1))) with 1 by lia.
  intros (_ & C & _). unfold uni_lo, x in C. change (inject_Z 1) with 1%Q in C. lra.
Qed.

(* ------------------------------------------------------------------ *)
Example index_case :
  has_fields ML_Binary32 0xC0700000 true 128 0x700000 (* -3.75 *)
  /\ mantissa_msb_index true ML_Binary32 3 0xC0700000 = Some 7
  /\ mantissa_msb_index false ML_Binary32 3 0xC0700000 = Some 7
  /\ fp_index true ML_Binary32 (-1) 1 2 0x40700000 (* 3.75 in [0.5, 4): 12 sub-intervals *) = Some 11
  /\ (fp_lo (-1) 2 11 == 7 # 2)%Q /\ (fp_hi (-1) 2 11 == 4)%Q
  /\ uni_index qrne (rne (mkF 24 None)) 1 3 5 (27 # 16) = 2
  /\ (uni_lo 1 3 5 2 == 9 # 5)%Q
  /\ nearest_int qrne.
Proof.
  split; [unfold has_fields; cbn; lia|]. repeat (split; [vm_compute; reflexivity|]). intros q. apply qrne_half.
Qed.

Print Assumptions mantissa_tiles.
Print Assumptions mantissa_index_correct.
Print Assumptions fp_tiles.
Print Assumptions fp_index_correct.
Print Assumptions offset_input_in_range.
Print Assumptions uniform_tiles.
Print Assumptions uniform_index_exact.
Print Assumptions uniform_index_rounded.
Print Assumptions uniform_sub_interval_refuted.
