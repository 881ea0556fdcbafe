(* Hardware adder: specification of the rounded sum, and lemmas about the sum. *)
From Coq Require Import ZArith QArith Qabs Qround Bool Lia Lqa Qfield.
From Verif Require Import QUtil FpFormatModel FpFormatSpec FpFormatProofs FpFormatProofs2 FpFormatProps TruncProps AdderModel AdderProofs.
Open Scope Z_scope.

(* the number of a normal word with fields s, E, M (IEEE 754, 3.4) *)
Definition sg (s : bool) : Q := if s then (-1)%Q else 1%Q.
Definition normal_val (F : fpfmt) (s : bool) (E M : Z) : Q := (sg s * (p2 (E - ieee_bias F) * (1 + inject_Z M * p2 (- fsz F))))%Q.
Definition normal_word (F : fpfmt) (c : Z) (s : bool) (E M : Z) : Prop := has_fields F c s E M /\ 0 < E < 2 ^ esz F - 1.
(* the word c is q rounded to nearest, ties to even *)
Definition correctly_rounded (F : fpfmt) (q : Q) (c : Z) : Prop :=
  exists r, get_value_from_integer_coding F c = Num r /\ nearest F q r /\
    forall u, representable F u -> ~ (u == r)%Q -> (Qabs (q - u) == Qabs (q - r))%Q -> Z.even c = true.

Lemma sg_abs : forall s q, (Qabs (sg s * q) == Qabs q)%Q.
Proof. intros [] q; cbn [sg]; [setoid_replace (-1 * q)%Q with (- q)%Q by ring; apply Qabs_opp|setoid_replace (1 * q)%Q with q by ring; reflexivity]. Qed.
Lemma sg_sg : forall s q, (sg s * (sg s * q) == q)%Q. Proof. intros []; intros; cbn [sg]; ring. Qed.

Section W.
Variable F : fpfmt.
Hypothesis Hok : fmt_ok F.
Local Notation e := (esz F).
Local Notation f := (fsz F).
Local Notation B := (ieee_bias F).

Lemma representable_sg : forall s u, representable F u -> representable F (sg s * u)%Q.
Proof.
  intros [] u H; cbn [sg].
  - apply (representable_comp F (- u)); [ring|]. now apply representable_opp.
  - apply (representable_comp F u); [ring|auto].
Qed.
Lemma decode_normal : forall c s E M, normal_word F c s E M ->
  exists r, get_value_from_integer_coding F c = Num r /\ (r == normal_val F s E M)%Q.
Proof.
  intros c s E M [H HE]. pose proof (decode_ieee F Hok c s E M H) as D. unfold normal_val, sg.
  inversion D as [| | | | | |s2 E2 M2 r2 HE2 Hr2 Es2 EE2 EM2 Eq2|s2 M2 r2 HM2 Hr2 Es2 EE2 EM2 Eq2]; try lia.
  exists r2. split; auto. rewrite Hr2. ring.
Qed.
Lemma even_word : forall c s E M, has_fields F c s E M -> Z.even c = Z.even M.
Proof.
  intros c s E M [-> _]. destruct Hok as [He Hf]. rewrite Z.even_add.
  replace (Z.even ((if s then 2 ^ (e + f) else 0) + E * 2 ^ f)) with true; [destruct (Z.even M); reflexivity|].
  rewrite (pf_half F Hok), (p_ef F Hok), (pf_half F Hok), Z.even_add. destruct s; rewrite !Z.even_mul; cbn [Z.even]; rewrite ?orb_true_r; reflexivity.
Qed.

Lemma word_rne : forall (s : bool) q k K c, (p2 k <= q)%Q -> (q < p2 (k + 1))%Q -> emin_normal F <= k <= emax F ->
  K = qrne (q / p2 (k - f)) -> 2 ^ f <= K < 2 ^ (f + 1) -> has_fields F c s (k + B) (K - 2 ^ f) ->
  correctly_rounded F (sg s * q) c.
Proof.
  intros s q k K c L1 L2 Hk EK HK Hc. pose proof Hok as [He Hf]. pose proof (p2_pos k) as Pk.
  assert (Q0 : (0 < q)%Q) by lra. assert (Qz : ~ (q == 0)%Q) by lra.
  assert (Hx : rnd_exp F q = k - f).
  { unfold rnd_exp. rewrite (qlog2_unique (Qabs q) k); [lia| |]; rewrite Qabs_pos by lra; auto. }
  assert (NE : 0 < k + B < 2 ^ e - 1).
  { unfold emin_normal, emax in Hk. rewrite (bias_eq F) in Hk. lia. }
  destruct (decode_normal c s (k + B) (K - 2 ^ f) (conj Hc NE)) as [r [Dr Er]].
  assert (Er' : (r == sg s * (inject_Z K * p2 (k - f)))%Q).
  { rewrite Er. unfold normal_val. apply Qmult_comp; [reflexivity|]. replace (k + B - B) with k by lia.
    unfold Z.sub. rewrite inject_Z_plus, inject_Z_opp, p2_plus, <- (p2_Z f) by lia.
    pose proof (p2_opp f) as O. setoid_replace (p2 k * (1 + (inject_Z K + - p2 f) * p2 (- f)))%Q with (p2 k * (1 + inject_Z K * p2 (- f) - p2 (- f) * p2 f))%Q by ring.
    rewrite O. ring. }
  pose proof (p2_pos (k - f)) as P.
  assert (NN : forall z, (Qabs (q - inject_Z K * p2 (k - f)) <= Qabs (q - inject_Z z * p2 (k - f)))%Q).
  { intros z. rewrite EK, !Qabs_scale by auto. apply Qmult_le_compat_r; [apply int_nearest|lra]. }
  assert (Fold : forall u, (Qabs (sg s * q - u) == Qabs (q - sg s * u))%Q).
  { intros u. rewrite <- (sg_abs s (sg s * q - u)). apply Qabs_wd. destruct s; cbn [sg]; ring. }
  assert (Dr' : (Qabs (sg s * q - r) == Qabs (q - inject_Z K * p2 (k - f)))%Q).
  { rewrite Fold. apply Qabs_wd. rewrite Er', sg_sg. reflexivity. }
  exists r. split; auto. split; [split|].
  - apply (representable_comp F (sg s * (inject_Z K * p2 (k - f)))); [now symmetry|]. apply representable_sg.
    exists K, (k - f). split; [lia|]. split; [|reflexivity]. unfold emin_normal, emax in Hk. rewrite (bias_eq F) in Hk. unfold ieee_bias in *. pose proof (pe_half F Hok). lia.
  - intros u Ru. rewrite Dr', Fold.
    destruct (repr_multiple F Hok q (sg s * u) Qz (representable_sg s u Ru)) as [[z Hz]|[z Hz]]; rewrite Hx in Hz.
    + rewrite Hz. apply NN.
    + specialize (NN z). lra.
  - intros u Ru Nu Eu. rewrite Dr', Fold in Eu.
    assert (EvK : Z.even K = true).
    { destruct (repr_multiple F Hok q (sg s * u) Qz (representable_sg s u Ru)) as [[z Hz]|[z Hz]]; rewrite Hx in Hz.
      - rewrite EK. apply (int_tie (q / p2 (k - f)) z).
        + rewrite <- EK. intros ->. apply Nu. rewrite Er', <- Hz, sg_sg. reflexivity.
        + rewrite <- EK. rewrite Hz in Eu. rewrite !Qabs_scale in Eu by auto. apply Qmult_le_r with (z := p2 (k - f)); [auto|]. rewrite Eu. lra.
      - specialize (NN z). lra. }
    rewrite (even_word _ _ _ _ Hc), Z.even_sub, EvK, (pf_half F Hok), Z.even_mul. reflexivity.
Qed.

(* a word whose distance to the number is beaten is not the rounding *)
Lemma not_rounded : forall q c r u, get_value_from_integer_coding F c = Num r -> representable F u ->
  (Qabs (q - u) < Qabs (q - r))%Q -> ~ correctly_rounded F q c.
Proof.
  intros q c r u D Ru L [r' [D' [[_ N] _]]]. rewrite D in D'. injection D' as <-. specialize (N u Ru). lra.
Qed.
Lemma representable_p2 : forall k, emin_normal F <= k <= emax F -> representable F (p2 k).
Proof.
  intros k Hk. pose proof Hok as [He Hf]. exists (2 ^ f), (k - f). pose proof (pow2_pos f). split; [|split].
  - rewrite Z.abs_eq by lia. rewrite (pf1 F Hok). lia.
  - unfold emin_normal, emax in Hk. rewrite (bias_eq F) in Hk. unfold ieee_bias in *. pose proof (pe_half F Hok). lia.
  - rewrite <- p2_Z by lia. rewrite <- p2_plus. replace (f + (k - f)) with k by lia. reflexivity.
Qed.

(* ---- the operands *)
Variables (x y : Z) (sx sy : bool) (Ex Mx Ey My : Z).
Hypothesis Hx : normal_word F x sx Ex Mx.
Hypothesis Hy : normal_word F y sy Ey My.
Local Notation p := (msz F).
Local Notation n := (add_width F).
Local Notation X := (2 ^ f + Mx).
Local Notation Y := (2 ^ f + My).
Local Notation d := (Ex + (p + 2) - Ey).
(* weight of the lowest bit of the adder *)
Local Notation u := (Ex - B - f - (p + 2)).

Lemma hw_sign_fields : forall c s E M, has_fields F c s E M -> hw_sign F c = s.
Proof.
  intros c s E M H. destruct Hok. unfold hw_sign. rewrite testbit_div by lia. rewrite (c_sign F Hok c s E M H). destruct s; reflexivity.
Qed.
Lemma mant_fields : forall c s E M, normal_word F c s E M -> hw_mant F c = 2 ^ f + M.
Proof.
  intros c s E M [H HE]. destruct Hok. unfold hw_mant. rewrite (hw_exp_fields F Hok _ _ _ _ H).
  destruct (Z.eqb_spec E 0); [lia|]. rewrite land_pow2 by lia. now rewrite (c_mod_f F Hok _ _ _ _ H).
Qed.
Lemma pf_p : 2 ^ p = 2 * 2 ^ f. Proof. destruct Hok. unfold msz. apply (pf1 F Hok). Qed.
Lemma X_b : 2 ^ f <= X < 2 ^ p. Proof. destruct Hx as [[_ [_ H]] _]. rewrite pf_p. lia. Qed.
Lemma Y_b : 2 ^ f <= Y < 2 ^ p. Proof. destruct Hy as [[_ [_ H]] _]. rewrite pf_p. lia. Qed.
Lemma e_x : hw_raw_exp F x = Ex. Proof. destruct Hx. eapply hw_exp_fields; eauto. Qed.
Lemma e_y : hw_raw_exp F y = Ey. Proof. destruct Hy. eapply hw_exp_fields; eauto. Qed.
Lemma s_x : hw_sign F x = sx. Proof. destruct Hx. eapply hw_sign_fields; eauto. Qed.
Lemma s_y : hw_sign F y = sy. Proof. destruct Hy. eapply hw_sign_fields; eauto. Qed.

(* the aligned operands *)
Definition ax : Z := X * 2 ^ (p + 2).
Definition ay (d' : Z) : Z := Y * 2 ^ (2 * p + 4 - d').
Definition dcl : Z := if d <? 0 then 0 else if 2 * p + 4 <? d then 2 * p + 4 else d.
Lemma dcl_b : 0 <= dcl <= 2 * p + 4.
Proof. pose proof (p_ge F Hok). unfold dcl. destruct (Z.ltb_spec d 0); [lia|]. destruct (Z.ltb_spec (2 * p + 4) d); lia. Qed.
Lemma n_eq : n = 3 * p + 5. Proof. reflexivity. Qed.
Lemma mant_add_eq : mant_add F x y = (ay dcl + (if xorb sx sy then - ax else ax)) mod 2 ^ n.
Proof.
  pose proof (p_ge F Hok) as Hp. pose proof dcl_b as Hd. unfold mant_add, effective_op. rewrite s_x, s_y.
  assert (Em : mant_shift F x y = dcl) by (unfold mant_shift, exp_diff, dcl; now rewrite e_x, e_y).
  rewrite Em, (mant_fields _ _ _ _ Hx), (mant_fields _ _ _ _ Hy).
  assert (Es : Z.shiftr (Y * 2 ^ (2 * p + 4)) dcl = ay dcl).
  { rewrite Z.shiftr_div_pow2 by lia. unfold ay. replace (2 * p + 4) with (2 * p + 4 - dcl + dcl) at 1 by lia.
    rewrite Z.pow_add_r by lia. rewrite Z.mul_assoc, Z.div_mul; auto. pose proof (pow2_pos dcl). lia. }
  rewrite Es. destruct (xorb sx sy); [|reflexivity]. rewrite Zplus_mod_idemp_r. reflexivity.
Qed.
Lemma ax_b : 2 ^ (2 * p + 1) <= ax < 2 ^ (2 * p + 2).
Proof.
  pose proof (p_ge F Hok) as Hp. pose proof X_b as [A C]. unfold ax. pose proof (pow2_pos (p + 2)).
  assert (E1 : 2 ^ (2 * p + 1) = 2 ^ f * 2 ^ (p + 2)) by (rewrite <- Z.pow_add_r by (unfold msz in *; lia); f_equal; unfold msz; lia).
  assert (E2 : 2 ^ (2 * p + 2) = 2 ^ p * 2 ^ (p + 2)) by (rewrite <- Z.pow_add_r by lia; f_equal; lia).
  rewrite E1, E2. nia.
Qed.
Lemma ay_b : forall d', 0 <= d' <= 2 * p + 4 -> 0 < ay d' <= 2 ^ (3 * p + 4) - 2 ^ (2 * p + 4).
Proof.
  intros d' Hd. pose proof (p_ge F Hok) as Hp. pose proof Y_b as [A C]. pose proof (pow2_pos f ltac:(unfold msz in *; lia)).
  unfold ay. pose proof (pow2_pos (2 * p + 4 - d') ltac:(lia)). split; [nia|].
  assert (2 ^ (2 * p + 4 - d') <= 2 ^ (2 * p + 4)) by (apply Z.pow_le_mono_r; lia).
  assert (E2 : 2 ^ (3 * p + 4) = 2 ^ p * 2 ^ (2 * p + 4)) by (rewrite <- Z.pow_add_r by lia; f_equal; lia).
  rewrite E2. pose proof (pow2_pos p ltac:(lia)). nia.
Qed.

(* sum of non-negative result *)
Lemma add_nonneg : (sx = sy \/ ax < ay dcl) ->
  let V := if xorb sx sy then ay dcl - ax else ay dcl + ax in
  mant_add F x y = V /\ 0 < V < 2 ^ (n - 1) /\ add_is_negative F x y = false.
Proof.
  intros H V. pose proof (p_ge F Hok) as Hp. pose proof ax_b as A. pose proof (ay_b dcl dcl_b) as C.
  assert (E3 : 2 ^ (2 * p + 4) = 4 * 2 ^ (2 * p + 2)) by (change 4 with (2 ^ 2); rewrite <- Z.pow_add_r by lia; f_equal; lia).
  pose proof (pow2_pos (2 * p + 2) ltac:(lia)) as P2. pose proof (pow2_pos (2 * p + 1) ltac:(lia)) as P1.
  assert (En : 2 ^ (n - 1) = 2 ^ (3 * p + 4)) by (f_equal; rewrite n_eq; lia).
  assert (En2 : 2 ^ n = 2 * 2 ^ (n - 1)) by (rewrite <- Z.pow_succ_r by (rewrite n_eq; lia); f_equal; lia).
  assert (HV : 0 < V < 2 ^ (n - 1)).
  { unfold V. rewrite En. destruct H as [-> |H]; [rewrite xorb_nilpotent; lia|]. destruct (xorb sx sy); lia. }
  assert (Em : mant_add F x y = V).
  { rewrite mant_add_eq. transitivity (V mod 2 ^ n); [f_equal; unfold V; destruct (xorb sx sy); lia|]. apply Z.mod_small. lia. }
  split; auto. split; auto. unfold add_is_negative. rewrite Em, testbit_div by (rewrite n_eq; lia).
  rewrite Z.div_small by lia. reflexivity.
Qed.
(* sum of negative result *)
Lemma add_neg : sx <> sy -> ay dcl < ax ->
  let V := ax - ay dcl in
  mant_add F x y = 2 ^ n - V /\ 0 < V < 2 ^ (n - 1) /\ add_is_negative F x y = true /\ mant_add_abs F x y = V.
Proof.
  intros Hs H V. pose proof (p_ge F Hok) as Hp. pose proof ax_b as A. pose proof (ay_b dcl dcl_b) as C.
  assert (E3 : 2 ^ (2 * p + 2) <= 2 ^ (3 * p + 4)) by (apply Z.pow_le_mono_r; lia).
  assert (En : 2 ^ (n - 1) = 2 ^ (3 * p + 4)) by (f_equal; rewrite n_eq; lia).
  assert (En2 : 2 ^ n = 2 * 2 ^ (n - 1)) by (rewrite <- Z.pow_succ_r by (rewrite n_eq; lia); f_equal; lia).
  assert (HV : 0 < V < 2 ^ (n - 1)) by (unfold V; lia).
  assert (Ex' : xorb sx sy = true) by (destruct sx, sy; auto; congruence).
  assert (Em : mant_add F x y = 2 ^ n - V).
  { rewrite mant_add_eq, Ex'. symmetry. apply Z.mod_unique with (-1); [left; lia|unfold V; lia]. }
  assert (Ng : add_is_negative F x y = true).
  { unfold add_is_negative, effective_op. rewrite s_x, s_y, Ex', andb_true_r, Em, testbit_div by (rewrite n_eq; lia).
    replace ((2 ^ n - V) / 2 ^ (n - 1)) with 1; [reflexivity|]. apply Z.div_unique with (2 ^ n - V - 2 ^ (n - 1)); [left; lia|lia]. }
  split; auto. split; auto. split; auto. unfold mant_add_abs. rewrite Ng, Em. symmetry. apply Z.mod_unique with (-1); [left; lia|lia].
Qed.

(* values of the operands in the unit of the adder *)
Lemma val_x : (normal_val F sx Ex Mx == sg sx * (inject_Z ax * p2 u))%Q.
Proof.
  pose proof (p_ge F Hok) as Hp. destruct Hok as [He Hf]. unfold normal_val, ax. apply Qmult_comp; [reflexivity|].
  rewrite inject_Z_mult, inject_Z_plus, <- !p2_Z by lia.
  setoid_replace ((p2 f + inject_Z Mx) * p2 (p + 2) * p2 u)%Q with ((p2 f + inject_Z Mx) * (p2 (p + 2) * p2 u))%Q by ring.
  rewrite <- p2_plus. replace (p + 2 + u) with (Ex - B + - f) by lia. rewrite p2_plus.
  pose proof (p2_opp f) as O. setoid_replace ((p2 f + inject_Z Mx) * (p2 (Ex - B) * p2 (- f)))%Q with (p2 (Ex - B) * (p2 (- f) * p2 f + inject_Z Mx * p2 (- f)))%Q by ring.
  rewrite O. ring.
Qed.
Lemma val_y : forall d', d' <= 2 * p + 4 ->
  (normal_val F sy Ey My == sg sy * (inject_Z (ay d') * p2 (u + (d' - d))))%Q.
Proof.
  intros d' Hd. pose proof (p_ge F Hok) as Hp. destruct Hok as [He Hf]. unfold normal_val, ay. apply Qmult_comp; [reflexivity|].
  rewrite inject_Z_mult, inject_Z_plus, <- !p2_Z by lia.
  setoid_replace ((p2 f + inject_Z My) * p2 (2 * p + 4 - d') * p2 (u + (d' - d)))%Q with ((p2 f + inject_Z My) * (p2 (2 * p + 4 - d') * p2 (u + (d' - d))))%Q by ring.
  rewrite <- p2_plus. replace (2 * p + 4 - d' + (u + (d' - d))) with (Ey - B + - f) by lia. rewrite p2_plus.
  pose proof (p2_opp f) as O. setoid_replace ((p2 f + inject_Z My) * (p2 (Ey - B) * p2 (- f)))%Q with (p2 (Ey - B) * (p2 (- f) * p2 f + inject_Z My * p2 (- f)))%Q by ring.
  rewrite O. ring.
Qed.

(* the result for a non-negative sum V *)
Lemma fp_add_nonneg : (sx = sy \/ ax < ay dcl) ->
  let V := if xorb sx sy then ay dcl - ax else ay dcl + ax in
  let k := Z.log2 V + u in
  let K := qrne (inject_Z V * p2 (f - Z.log2 V)) in
  2 ^ f <= K <= 2 ^ (f + 1) /\
  (K < 2 ^ (f + 1) -> fp_add F x y = (if sy then 2 ^ (e + f) else 0) + ((k + B) mod 2 ^ e) * 2 ^ f + (K - 2 ^ f)) /\
  (K = 2 ^ (f + 1) -> fp_add F x y = (if sy then 2 ^ (e + f) else 0) + ((k + 1 + B) mod 2 ^ e) * 2 ^ f + 2 ^ (f - 1)).
Proof.
  intros H V k K. pose proof (p_ge F Hok) as Hp. destruct (add_nonneg H) as [Em [HV Ng]]. fold V in Em, HV.
  assert (En2 : 2 ^ n = 2 * 2 ^ (n - 1)) by (rewrite <- Z.pow_succ_r by (rewrite n_eq; lia); f_equal; lia).
  assert (HV' : 0 < V < 2 ^ n) by lia.
  assert (Eabs : mant_add_abs F x y = V) by (unfold mant_add_abs; now rewrite Ng, Em).
  pose proof (normed_bounds F V HV') as NB.
  assert (Enm : res_normed_mant F x y = V * 2 ^ lzc n V).
  { unfold res_normed_mant, add_lzc. rewrite Em, Eabs. apply Z.mod_small. pose proof (pow2_pos (n - 1)). rewrite n_eq in *. lia. }
  set (m := V * 2 ^ lzc n V) in *.
  assert (El : lzc n V = n - 1 - Z.log2 V) by (unfold lzc; destruct (Z.eqb_spec V 0); [lia|auto]).
  assert (Ln : Z.log2 V < n) by (apply Z.log2_lt_pow2; lia).
  destruct (rounded_spec F Hok m NB) as [RS RB].
  assert (EK : K = 2 ^ f + rounded_mant F m).
  { rewrite RS. unfold K. apply qrne_comp. unfold m. rewrite inject_Z_mult, El, <- p2_Z by lia.
    setoid_replace (inject_Z V * p2 (n - 1 - Z.log2 V) * p2 (- (2 * p + 5)))%Q with (inject_Z V * (p2 (n - 1 - Z.log2 V) * p2 (- (2 * p + 5))))%Q by ring.
    rewrite <- p2_plus. replace (n - 1 - Z.log2 V + - (2 * p + 5)) with (f - Z.log2 V); [reflexivity|]. rewrite n_eq. unfold msz. lia. }
  destruct (field_spec F Hok m NB) as [F1 F2].
  assert (Eexp : res_exp F x y = (k + b2z (rounded_overflow F m) + B) mod 2 ^ e).
  { unfold res_exp, add_lzc. rewrite Enm, e_x, Eabs, El. destruct Hok as [He Hf].
    rewrite <- Znumtheory.Zmod_div_mod.
    - f_equal. unfold k. rewrite n_eq. unfold msz. lia.
    - apply pow2_pos; lia.
    - apply pow2_pos; lia.
    - exists (2 ^ 2). rewrite <- Z.pow_add_r by lia. f_equal. lia. }
  rewrite (pf1 F Hok). split; [lia|]. unfold fp_add. rewrite Ng, s_y, xorb_false_l, Eexp, Enm.
  split; intros HK; destruct (rounded_overflow F m) eqn:Ov; cbn [b2z].
  - destruct (F2 eq_refl). lia.
  - destruct (F1 eq_refl) as [F3 F4]. rewrite F3. replace (k + 0 + B) with (k + B) by lia. lia.
  - destruct (F2 eq_refl) as [F3 F4]. rewrite F3. reflexivity.
  - destruct (F1 eq_refl). lia.
Qed.
End W.
