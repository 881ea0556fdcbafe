(* Properties of the fixed-point accumulation. *)
From Coq Require Import ZArith QArith Bool List Lia.
From Verif Require Import QUtil FpFormatModel FpFormatSpec FpFormatProofs TruncProps AdderModel AdderProofs AdderProofs2 AdderProofs3 AdderProps MpfmaModel MpfmaProofs3 FixMpfmaModel FixMpfmaSpec FixMpfmaProofs.
Import ListNotations.
Open Scope Z_scope.

(* Accumulator in two's complement: the product is added exactly, modulo the width. *)
Theorem fx_acc_exact : forall F k x y acc N, fmt_ok F -> 0 <= k -> product_units F x y N -> well_placed F x y ->
  fx_acc F k x y acc = (acc + N) mod 2 ^ fx_width F k.
Proof.
  intros F k x y acc N Hok Hk P Hw. destruct (shifted_units F Hok k Hk x y N P Hw) as (_ & E & _).
  rewrite acc_mod by auto. f_equal. lia.
Qed.

(* A sequence of products: exact when the final sum fits, whatever the partial sums do. *)
Theorem fx_dot_exact : forall F k l acc S, fmt_ok F -> 0 <= k -> dot F l S -> Forall (fun xy => well_placed F (fst xy) (snd xy)) l ->
  0 <= acc < 2 ^ fx_width F k ->
  fx_run F k l acc = (acc + S) mod 2 ^ fx_width F k /\
  (- 2 ^ (fx_width F k - 1) <= two_compl (fx_width F k) acc + S < 2 ^ (fx_width F k - 1) ->
   two_compl (fx_width F k) (fx_run F k l acc) = two_compl (fx_width F k) acc + S).
Proof.
  intros F k l acc S Hok Hk HD HW Ha.
  assert (E : fx_run F k l acc = (acc + S) mod 2 ^ fx_width F k).
  { revert acc Ha HW. induction HD as [|x y l N S P HD IH]; intros acc Ha HW.
    - unfold fx_run. cbn [fold_left]. rewrite Z.mod_small; lia.
    - inversion HW as [|? ? Hw HW']; subst. unfold fx_run in *. cbn [fold_left fst snd] in *.
      rewrite (fx_acc_exact F k x y acc N Hok Hk P Hw).
      assert (0 < 2 ^ fx_width F k) by (apply Z.pow_pos_nonneg; pose proof (W_pos F Hok k Hk); lia).
      rewrite IH; [|apply Z.mod_pos_bound; auto|auto]. rewrite Zplus_mod_idemp_l. f_equal. lia. }
  split; [exact E|]. intros HB. rewrite E. destruct (two_compl_congr F k acc) as [j Ej].
  rewrite <- (two_compl_mod F Hok k Hk (two_compl (fx_width F k) acc + S) HB) at 1. f_equal. rewrite Ej.
  replace (acc + j * 2 ^ fx_width F k + S) with (acc + S + j * 2 ^ fx_width F k) by lia.
  rewrite Z_mod_plus_full. reflexivity.
Qed.

(* With k extra digits, 2^(k-1) products are summed exactly from a null accumulator. *)
Theorem fx_extra_digits : forall F k l S, fmt_ok F -> 1 <= k -> dot F l S -> Forall (fun xy => well_placed F (fst xy) (snd xy)) l ->
  Z.of_nat (length l) <= 2 ^ (k - 1) -> two_compl (fx_width F k) (fx_run F k l 0) = S.
Proof.
  intros F k l S Hok Hk HD HW HL. pose proof (W_pos F Hok k ltac:(lia)) as WP.
  assert (P : 2 ^ (fx_width F k - 1) = 2 ^ (k - 1) * 2 ^ (fx_width F k - k)).
  { rewrite <- Z.pow_add_r; [f_equal; lia|lia|]. rewrite (width_eq F Hok). pose proof (B_ge F Hok). destruct Hok. lia. }
  assert (Q : 0 < 2 ^ (fx_width F k - k)).
  { apply Z.pow_pos_nonneg; [lia|]. rewrite (width_eq F Hok). pose proof (B_ge F Hok). destruct Hok. lia. }
  assert (B : Z.abs S <= Z.of_nat (length l) * (2 ^ (fx_width F k - k) - 1)).
  { clear HL P. induction HD as [|x y l N S PU HD IH].
    - cbn. lia.
    - inversion HW as [|? ? Hw HW']; subst. specialize (IH HW'). cbn [fst snd] in Hw.
      destruct (shifted_units F Hok k ltac:(lia) x y N PU Hw) as (E1 & _ & E2). cbn [length]. rewrite Nat2Z.inj_succ. unfold Z.succ.
      rewrite Z.mul_add_distr_r. lia. }
  assert (B2 : Z.of_nat (length l) * (2 ^ (fx_width F k - k) - 1) <= 2 ^ (k - 1) * (2 ^ (fx_width F k - k) - 1)) by (apply Z.mul_le_mono_nonneg_r; lia).
  rewrite Z.mul_sub_distr_l in B2. assert (0 < 2 ^ (k - 1)) by (apply Z.pow_pos_nonneg; lia).
  assert (Z0 : two_compl (fx_width F k) 0 = 0).
  { unfold two_compl. assert (0 < 2 ^ (fx_width F k - 1)) by (apply Z.pow_pos_nonneg; lia). destruct (Z.leb_spec (2 ^ (fx_width F k - 1)) 0); lia. }
  destruct (fx_dot_exact F k l 0 S Hok ltac:(lia) HD HW) as [_ E].
  { split; [lia|]. apply Z.pow_pos_nonneg; lia. }
  rewrite E; rewrite Z0; lia.
Qed.

(* Accumulator in sign and magnitude: exact when the sum fits, the magnitude modulo the
   width otherwise. *)
Theorem fx_sm_exact : forall F k x y s acc N, fmt_ok F -> 0 <= k -> product_units F x y N -> well_placed F x y ->
  0 <= acc < 2 ^ fx_width F k ->
  let V := sm_value (s, acc) + N in
  0 <= snd (fx_sm_acc F k x y s acc) < 2 ^ fx_width F k /\
  snd (fx_sm_acc F k x y s acc) = Z.abs V mod 2 ^ fx_width F k /\
  (Z.abs V < 2 ^ fx_width F k -> sm_value (fx_sm_acc F k x y s acc) = V).
Proof.
  intros F k x y s acc N Hok Hk P Hw Ha V. destruct (shifted_units F Hok k Hk x y N P Hw) as (_ & E & SB).
  pose proof (W_pos F Hok k Hk) as WP.
  assert (L : 2 ^ (fx_width F k - k) <= 2 ^ fx_width F k) by (apply Z.pow_le_mono_r; lia).
  set (T := 2 ^ fx_width F k) in *. set (h := fx_shifted F k x y) in *.
  assert (Hh : 0 <= h < T) by lia. clear L SB.
  destruct (fx_sign_xy F x y) eqn:Es, s; unfold sm_value in V; cbn [fst snd] in V.
  - rewrite (sm_same F Hok k Hk x y true acc) by auto. fold T h. unfold sm_value; cbn [fst snd].
    assert (EV : Z.abs V = acc + h) by lia. rewrite EV. split; [apply Z.mod_pos_bound; lia|split; [auto|]].
    intros HV. rewrite Z.mod_small by lia. lia.
  - rewrite (sm_diff F Hok k Hk x y false acc) by auto. fold h.
    destruct (Z.leb_spec acc h); unfold sm_value; cbn [fst snd negb]; (split; [lia|split; [rewrite Z.mod_small|]; lia]).
  - rewrite (sm_diff F Hok k Hk x y true acc) by auto. fold h.
    destruct (Z.leb_spec acc h); unfold sm_value; cbn [fst snd negb]; (split; [lia|split; [rewrite Z.mod_small|]; lia]).
  - rewrite (sm_same F Hok k Hk x y false acc) by auto. fold T h. unfold sm_value; cbn [fst snd].
    assert (EV : Z.abs V = acc + h) by lia. rewrite EV. split; [apply Z.mod_pos_bound; lia|split; [auto|]].
    intros HV. rewrite Z.mod_small by lia. lia.
Qed.

(* A sequence of at most 2^k products in sign and magnitude, from a null accumulator. *)
Theorem fx_sm_extra_digits : forall F k l S, fmt_ok F -> 0 <= k -> dot F l S -> Forall (fun xy => well_placed F (fst xy) (snd xy)) l ->
  Z.of_nat (length l) <= 2 ^ k -> forall s, sm_value (fx_sm_run F k l (s, 0)) = S.
Proof.
  intros F k l S Hok Hk HD HW HL s. pose proof (W_pos F Hok k Hk) as WP.
  assert (P : 2 ^ fx_width F k = 2 ^ k * 2 ^ (fx_width F k - k)).
  { rewrite <- Z.pow_add_r; [f_equal; lia|lia|]. rewrite (width_eq F Hok). pose proof (B_ge F Hok). destruct Hok. lia. }
  assert (Q : 0 < 2 ^ (fx_width F k - k)).
  { apply Z.pow_pos_nonneg; [lia|]. rewrite (width_eq F Hok). pose proof (B_ge F Hok). destruct Hok. lia. }
  set (U := 2 ^ (fx_width F k - k)) in *. set (T := 2 ^ fx_width F k) in *.
  assert (K : forall st n, 0 <= snd st < T -> 0 <= n -> Z.abs (sm_value st) <= n * (U - 1) -> n + Z.of_nat (length l) <= 2 ^ k ->
    sm_value (fx_sm_run F k l st) = sm_value st + S).
  { clear HL s. induction HD as [|x y l N S PU HD IH]; intros st n Hst Hn HB HL.
    - unfold fx_sm_run. cbn [fold_left]. lia.
    - inversion HW as [|? ? Hw HW']; subst. cbn [fst snd] in Hw. destruct st as [s a]. cbn [fst snd] in Hst.
      destruct (shifted_units F Hok k Hk x y N PU Hw) as (E1 & _ & E2). fold U in E2.
      destruct (fx_sm_exact F k x y s a N Hok Hk PU Hw Hst) as (R1 & _ & R3). fold T in R1, R3.
      cbn [length] in HL. rewrite Nat2Z.inj_succ in HL. unfold Z.succ in HL.
      assert (NB : Z.abs (sm_value (s, a) + N) <= (n + 1) * (U - 1)) by (rewrite Z.mul_add_distr_r; lia).
      assert (NT : (n + 1) * (U - 1) <= 2 ^ k * (U - 1)) by (apply Z.mul_le_mono_nonneg_r; lia).
      rewrite Z.mul_sub_distr_l in NT. assert (0 < 2 ^ k) by (apply Z.pow_pos_nonneg; lia).
      assert (R : sm_value (fx_sm_acc F k x y s a) = sm_value (s, a) + N) by (apply R3; lia).
      unfold fx_sm_run in *. cbn [fold_left fst snd].
      rewrite (IH HW' (fx_sm_acc F k x y s a) (n + 1)); [lia|auto|lia|rewrite R; auto|lia]. }
  rewrite (K (s, 0) 0); [destruct s; unfold sm_value; cbn; lia|cbn [snd]; split; [lia|apply Z.pow_pos_nonneg; lia]|lia|destruct s; unfold sm_value; cbn; lia|lia].
Qed.

(* The emulated result is the exact sum; the block agrees with it but for the sign of zero. *)
Lemma emulate_exact : forall F qx qy acc N, fmt_ok F -> (inject_Z N * unit2 F == qx * qy)%Q -> fx_emulate F qx qy acc = acc + N.
Proof.
  intros F qx qy acc N Hok E. unfold fx_emulate. apply qrne_int. rewrite <- E. unfold unit2. rewrite (lsb_eq F).
  set (u := 2 * (1 - ieee_bias F - fsz F)). pose proof (p2_opp u) as O.
  setoid_replace ((inject_Z N * p2 u + inject_Z acc * p2 u) * p2 (- u))%Q with ((inject_Z acc + inject_Z N) * (p2 (- u) * p2 u))%Q by ring.
  rewrite O, inject_Z_plus. ring.
Qed.
Theorem fx_sm_emulated : forall F k x y s acc N qx qy, fmt_ok F -> 0 <= k ->
  finite_value F x qx -> finite_value F y qy -> (inject_Z N * unit2 F == qx * qy)%Q -> well_placed F x y ->
  0 <= acc < 2 ^ fx_width F k -> Z.abs (sm_value (s, acc) + N) < 2 ^ fx_width F k ->
  (fx_sm_acc F k x y s acc = fx_sm_emulate F qx qy s acc <-> sm_value (s, acc) + N <> 0 \/ xorb (hw_sign F x) (hw_sign F y) = false).
Proof.
  intros F k x y s acc N qx qy Hok Hk Vx Vy E Hw Ha HV.
  assert (P : product_units F x y N) by (exists qx, qy; auto).
  destruct (shifted_units F Hok k Hk x y N P Hw) as (_ & EN & SB). pose proof (W_pos F Hok k Hk) as WP.
  assert (L : 2 ^ (fx_width F k - k) <= 2 ^ fx_width F k) by (apply Z.pow_le_mono_r; lia).
  unfold fx_sm_emulate. rewrite (emulate_exact F qx qy _ N Hok E). change (if s then - acc else acc) with (sm_value (s, acc)).
  set (h := fx_shifted F k x y) in *. set (T := 2 ^ fx_width F k) in *. assert (Hh : 0 <= h < T) by lia. clear L SB.
  change (xorb (hw_sign F x) (hw_sign F y)) with (fx_sign_xy F x y).
  assert (Res : fx_sm_acc F k x y s acc = (if sm_value (s, acc) + N =? 0 then fx_sign_xy F x y else sm_value (s, acc) + N <? 0, Z.abs (sm_value (s, acc) + N))).
  { unfold sm_value in *. cbn [fst snd] in *. destruct (fx_sign_xy F x y) eqn:Es, s.
    - rewrite (sm_same F Hok k Hk x y true acc) by auto. fold T h. rewrite Z.mod_small by lia.
      destruct (Z.eqb_spec (- acc + N) 0); [f_equal; lia|]. destruct (Z.ltb_spec (- acc + N) 0); [f_equal; lia|lia].
    - rewrite (sm_diff F Hok k Hk x y false acc) by auto. fold h.
      destruct (Z.leb_spec acc h), (Z.eqb_spec (acc + N) 0); try (destruct (Z.ltb_spec (acc + N) 0)); try lia; f_equal; cbn [negb]; try lia; auto.
    - rewrite (sm_diff F Hok k Hk x y true acc) by auto. fold h.
      destruct (Z.leb_spec acc h), (Z.eqb_spec (- acc + N) 0); try (destruct (Z.ltb_spec (- acc + N) 0)); try lia; f_equal; cbn [negb]; try lia; auto.
    - rewrite (sm_same F Hok k Hk x y false acc) by auto. fold T h. rewrite Z.mod_small by lia.
      destruct (Z.eqb_spec (acc + N) 0); [f_equal; lia|]. destruct (Z.ltb_spec (acc + N) 0); [lia|f_equal; lia]. }
  rewrite Res. set (V := sm_value (s, acc) + N) in *. destruct (Z.eqb_spec V 0) as [Z0|NZ].
  - rewrite Z0. cbn [Z.ltb Z.compare Z.abs]. split; [intros H; right; congruence|intros [H|H]; [lia|congruence]].
  - split; [intros _; left; auto|reflexivity].
Qed.

(* Refuted: the product of a subnormal number and of a number of the second normal binade or
   above is added at half its value, in both encodings. *)
Theorem fx_subnormal_half_refuted : forall F k x y acc s N, fmt_ok F -> 0 <= k -> product_units F x y N ->
  subnormal F x /\ above_emin F y \/ subnormal F y /\ above_emin F x -> 0 <= acc < 2 ^ fx_width F k ->
  Z.even N = true /\ N <> 0 /\
  fx_acc F k x y acc = (acc + N / 2) mod 2 ^ fx_width F k /\
  fx_acc F k x y acc <> (acc + N) mod 2 ^ fx_width F k /\
  (Z.abs (sm_value (s, acc) + N / 2) < 2 ^ fx_width F k -> sm_value (fx_sm_acc F k x y s acc) = sm_value (s, acc) + N / 2).
Proof.
  intros F k x y acc s N Hok Hk P C Ha. destruct (shifted_half F Hok k Hk x y N P C) as (_ & E & SB).
  pose proof (W_pos F Hok k Hk) as WP.
  assert (L : 2 ^ (fx_width F k - k) <= 2 ^ fx_width F k) by (apply Z.pow_le_mono_r; lia).
  pose proof (acc_mod F Hok k Hk x y acc) as EA. set (h := fx_shifted F k x y) in *. set (T := 2 ^ fx_width F k) in *.
  assert (Hh : 0 < h < T) by lia. clear L SB.
  assert (EN : N / 2 = (if fx_sign_xy F x y then -1 else 1) * h).
  { symmetry. apply Z.div_unique with 0; [lia|]. destruct (fx_sign_xy F x y); lia. }
  assert (EV : N = 2 * (N / 2)) by (rewrite EN; destruct (fx_sign_xy F x y); lia).
  split; [rewrite EV; rewrite Z.even_mul; reflexivity|]. split; [destruct (fx_sign_xy F x y); lia|].
  rewrite EA, <- EN. split; [reflexivity|]. split.
  - intros H. assert (D : (N / 2) mod T = 0).
    { replace (N / 2) with ((acc + N) - (acc + N / 2)) by lia. rewrite Zminus_mod, H, Z.sub_diag. reflexivity. }
    apply Z.mod_divide in D; [|lia]. destruct D as [j Hj].
    assert (-T < j * T < T) by (rewrite <- Hj, EN; destruct (fx_sign_xy F x y); lia).
    assert (j = 0) by nia. subst j. rewrite EN in Hj. destruct (fx_sign_xy F x y); lia.
  - intros HV. rewrite EN in *. clear EA EN EV P C E. destruct (fx_sign_xy F x y) eqn:Es, s; unfold sm_value in *; cbn [fst snd] in *.
    + rewrite (sm_same F Hok k Hk x y true acc) by (fold h T; auto; lia). fold T h. cbn [fst snd]. rewrite Z.mod_small; lia.
    + rewrite (sm_diff F Hok k Hk x y false acc) by (fold h T; auto; lia). fold h. destruct (Z.leb_spec acc h); cbn [fst snd negb]; lia.
    + rewrite (sm_diff F Hok k Hk x y true acc) by (fold h T; auto; lia). fold h. destruct (Z.leb_spec acc h); cbn [fst snd negb]; lia.
    + rewrite (sm_same F Hok k Hk x y false acc) by (fold h T; auto; lia). fold T h. cbn [fst snd]. rewrite Z.mod_small; lia.
Qed.

(* Refuted: a cancelled sum has the sign of the product, minus zero when it is negative;
   the emulation expects plus zero. *)
Theorem fx_minus_zero_refuted : forall F k x y N qx qy, fmt_ok F -> 0 <= k ->
  finite_value F x qx -> finite_value F y qy -> (inject_Z N * unit2 F == qx * qy)%Q -> well_placed F x y -> N < 0 ->
  fx_sm_acc F k x y false (- N) = (true, 0) /\ fx_sm_emulate F qx qy false (- N) = (false, 0).
Proof.
  intros F k x y N qx qy Hok Hk Vx Vy E Hw HN.
  assert (P : product_units F x y N) by (exists qx, qy; auto).
  destruct (shifted_units F Hok k Hk x y N P Hw) as (EA & EN & SB). pose proof (W_pos F Hok k Hk) as WP.
  assert (L : 2 ^ (fx_width F k - k) <= 2 ^ fx_width F k) by (apply Z.pow_le_mono_r; lia).
  split.
  - assert (Es : fx_sign_xy F x y = true) by (destruct (fx_sign_xy F x y); [auto|lia]).
    rewrite (sm_diff F Hok k Hk x y false) by (auto; lia). rewrite EA. destruct (Z.leb_spec (- N) (Z.abs N)); [|lia]. cbn [negb]. f_equal. lia.
  - unfold fx_sm_emulate. rewrite (emulate_exact F qx qy _ N Hok E). replace (- N + N) with 0 by lia. reflexivity.
Qed.

(* Refuted: with the default of no extra digit the two's complement accumulator has no room
   for a sign: in every format the square of the largest number is read as negative. *)
Theorem fx_sign_bit_refuted : forall F, fmt_ok F ->
  let x := (2 ^ esz F - 2) * 2 ^ fsz F + (2 ^ fsz F - 1) in
  exists N, product_units F x x N /\ well_placed F x x /\ 0 < N /\ two_compl (fx_width F 0) (fx_acc F 0 x x 0) < 0.
Proof.
  intros F Hok x. pose proof (pe1_ge F Hok) as PE. pose proof (pe_half F Hok) as PH. pose proof (B_eq F Hok) as EB. pose proof (B_ge F Hok) as HB.
  assert (Hf2 : 2 <= 2 ^ fsz F) by (change 2 with (2 ^ 1) at 1; apply Z.pow_le_mono_r; destruct Hok; lia).
  assert (Hx : has_fields F x false (2 ^ esz F - 2) (2 ^ fsz F - 1)) by (unfold has_fields, x; cbn [Z.add]; lia).
  set (E := 2 ^ esz F - 2) in *. set (M := 2 ^ fsz F - 1) in *.
  set (q := (1 * p2 (E - ieee_bias F) * (1 + inject_Z M * p2 (- fsz F)))%Q).
  assert (V : finite_value F x q).
  { exists false, E, M. split; auto. left. apply d_normal; [lia|]. unfold q. reflexivity. }
  pose proof (ms_val F Hok _ _ _ _ _ Hx V) as [_ EV]. rewrite Z.max_l in EV by lia.
  assert (Ems : ms F E M = 2 * 2 ^ fsz F - 1) by (unfold ms; destruct (Z.eqb_spec E 0); lia).
  set (N := ms F E M * ms F E M * 2 ^ (2 * E - 2)).
  assert (P : product_units F x x N).
  { exists q, q. split; [auto|split; [auto|]]. rewrite EV. unfold N, unit2. rewrite !inject_Z_mult, <- p2_Z by lia. cbn [sg].
    setoid_replace (inject_Z (ms F E M) * inject_Z (ms F E M) * p2 (2 * E - 2) * p2 (2 * (1 - ieee_bias F - fsz F)))%Q
      with (inject_Z (ms F E M) * inject_Z (ms F E M) * (p2 (2 * E - 2) * p2 (2 * (1 - ieee_bias F - fsz F))))%Q by ring.
    rewrite <- p2_plus. replace (2 * E - 2 + 2 * (1 - ieee_bias F - fsz F)) with ((E - ieee_bias F - fsz F) + (E - ieee_bias F - fsz F)) by lia.
    rewrite p2_plus. unfold sg. ring. }
  assert (Wp : well_placed F x x).
  { assert (NS : ~ subnormal F x).
    { intros (s & M' & H & _). pose proof (hw_exp_fields F Hok _ _ _ _ H) as E1. rewrite (hw_exp_fields F Hok _ _ _ _ Hx) in E1. lia. }
    split; intros [H _]; auto. }
  assert (PP : 0 < 2 ^ (2 * E - 2)) by (apply Z.pow_pos_nonneg; lia).
  assert (SQ : 2 * 2 ^ fsz F * 2 ^ fsz F <= ms F E M * ms F E M) by (rewrite Ems; nia).
  assert (HN : 2 ^ (fx_width F 0 - 1) <= N).
  { unfold N. apply Z.le_trans with (2 * 2 ^ fsz F * 2 ^ fsz F * 2 ^ (2 * E - 2)); [|apply Z.mul_le_mono_nonneg_r; lia].
    destruct Hok. replace (2 * 2 ^ fsz F * 2 ^ fsz F * 2 ^ (2 * E - 2)) with (2 ^ (1 + fsz F + fsz F + (2 * E - 2))) by (rewrite !Z.pow_add_r by lia; reflexivity). apply Z.pow_le_mono_r; [lia|]. rewrite (width_eq F (conj H H0)). lia. }
  exists N. split; [auto|split; [auto|split]].
  - unfold N. apply Z.mul_pos_pos; auto. rewrite Ems. nia.
  - pose proof (W_pos F Hok 0 ltac:(lia)) as WP. destruct (shifted_units F Hok 0 ltac:(lia) x x N P Wp) as (EA & _ & SB).
    assert (0 < 2 ^ (fx_width F 0 - 1)) by (apply Z.pow_pos_nonneg; lia).
    rewrite Z.sub_0_r in SB. rewrite (fx_acc_exact F 0 x x 0 N Hok ltac:(lia) P Wp). rewrite Z.mod_small by lia.
    unfold two_compl. destruct (Z.leb_spec (2 ^ (fx_width F 0 - 1)) (0 + N)); lia.
Qed.

(* ---- examples: binary16, words 0x3c00 = 1, 0xc000 = -2, 0x7bff the largest, 0x0001 the smallest *)
Ltac fields := unfold has_fields; cbn; lia.
Lemma v_one : finite_value ML_Binary16 15360 1.
Proof. exists false, 15, 0. split; [fields|]. left. apply d_normal; [cbn; lia|reflexivity]. Qed.
Lemma v_mtwo : finite_value ML_Binary16 49152 (-2).
Proof. exists true, 16, 0. split; [fields|]. left. apply d_normal; [cbn; lia|reflexivity]. Qed.
Lemma v_min : finite_value ML_Binary16 1 (p2 (-24)).
Proof. exists false, 0, 1. split; [fields|]. left. apply d_subnormal; [lia|reflexivity]. Qed.
Lemma ok16 : fmt_ok ML_Binary16. Proof. unfold fmt_ok. cbn. lia. Qed.
Lemma wp_ex : well_placed ML_Binary16 15360 49152.
Proof.
  split; intros [(s & M & H & _) _]; pose proof (hw_exp_fields _ ok16 _ _ _ _ H) as E; cbv in E; discriminate.
Qed.
Lemma pu_ex : product_units ML_Binary16 15360 49152 (- 2 ^ 49).
Proof. exists 1%Q, (-2)%Q. split; [apply v_one|split; [apply v_mtwo|reflexivity]]. Qed.
Lemma pu_sub : product_units ML_Binary16 1 49152 (- 2 ^ 25).
Proof. exists (p2 (-24)), (-2)%Q. split; [apply v_min|split; [apply v_mtwo|reflexivity]]. Qed.

Example fx_acc_example : fx_acc ML_Binary16 0 15360 49152 5 = (5 - 2 ^ 49) mod 2 ^ 80.
Proof. rewrite (fx_acc_exact ML_Binary16 0 15360 49152 5 (- 2 ^ 49) ok16 ltac:(lia) pu_ex wp_ex). reflexivity. Qed.
Example fx_dot_example : let l := [(15360, 49152); (49152, 49152)] in fx_run ML_Binary16 0 l 0 = 2 ^ 49 /\ dot ML_Binary16 l (- 2 ^ 49 + (2 ^ 50 + 0)).
Proof.
  split; [vm_compute; reflexivity|]. constructor; [apply pu_ex|]. constructor; [|constructor].
  exists (-2)%Q, (-2)%Q. split; [apply v_mtwo|split; [apply v_mtwo|reflexivity]].
Qed.
Example fx_extra_example : two_compl (fx_width ML_Binary16 2) (fx_run ML_Binary16 2 [(31743, 31743); (31743, 31743)] 0) = 2 * (2047 * 2047 * 2 ^ 58)
  /\ two_compl (fx_width ML_Binary16 1) (fx_run ML_Binary16 1 [(31743, 31743); (31743, 31743)] 0) < 0.
Proof. split; vm_compute; reflexivity. Qed.
Example fx_sm_example : fx_sm_acc ML_Binary16 0 15360 49152 false 5 = (true, 2 ^ 49 - 5) /\ sm_value (true, 2 ^ 49 - 5) = 5 - 2 ^ 49.
Proof. split; vm_compute; reflexivity. Qed.
Example fx_sm_run_example : fx_sm_run ML_Binary16 1 [(31743, 31743); (31743, 64511)] (true, 0) = (true, 0).
Proof. vm_compute. reflexivity. Qed.
Example fx_half_example : subnormal ML_Binary16 1 /\ above_emin ML_Binary16 49152 /\ fx_acc ML_Binary16 0 1 49152 (2 ^ 30) = 2 ^ 30 - 2 ^ 24.
Proof. split; [exists false, 1; split; [fields|lia]|]. split; [exists true, 16, 0; split; [fields|lia]|]. vm_compute. reflexivity. Qed.
Example fx_minus_zero_example : fx_sm_acc ML_Binary16 0 15360 49152 false (2 ^ 49) = (true, 0) /\ fx_sm_emulate ML_Binary16 1 (-2) false (2 ^ 49) = (false, 0).
Proof. apply (fx_minus_zero_refuted ML_Binary16 0 15360 49152 (- 2 ^ 49) 1 (-2) ok16 ltac:(lia) v_one v_mtwo ltac:(reflexivity) wp_ex). reflexivity. Qed.
Example fx_sign_bit_example : two_compl (fx_width ML_Binary16 0) (fx_acc ML_Binary16 0 31743 31743 0) = 2047 * 2047 * 2 ^ 58 - 2 ^ 80.
Proof. vm_compute. reflexivity. Qed.

Print Assumptions fx_acc_exact.
Print Assumptions fx_dot_exact.
Print Assumptions fx_extra_digits.
Print Assumptions fx_sm_exact.
Print Assumptions fx_sm_extra_digits.
Print Assumptions fx_sm_emulated.
Print Assumptions fx_subnormal_half_refuted.
Print Assumptions fx_minus_zero_refuted.
Print Assumptions fx_sign_bit_refuted.
