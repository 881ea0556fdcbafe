(* Lowering of fixed-point operations: lemmas. *)
From Coq Require Import ZArith QArith Qround Qabs Bool List Lia Lqa.
From Verif Require Import QUtil FpFormatModel FpFormatProofs FixedModel FixedSpec FixedProps IndexModel IndexProps RemquoProofs LowerModel.
Import ListNotations.
Open Scope Z_scope.

(* k is the largest multiple of the unit of F that is at most v *)
Definition rounded_down (F : fxfmt) (v : Q) (k : Z) : Prop :=
  (inject_Z k * fx_ulp F <= v)%Q /\ (v < inject_Z (k + 1) * fx_ulp F)%Q.
Definition fits (F : fxfmt) (k : Z) : Prop := fx_lo F <= k <= fx_hi F.

Lemma pow_pos : forall n, 0 < 2 ^ n \/ n < 0.
Proof. intros n. destruct (Z_lt_le_dec n 0); [right; auto|left; apply Z.pow_pos_nonneg; lia]. Qed.
Lemma p_pos : forall n, 0 <= n -> 0 < 2 ^ n. Proof. intros. apply Z.pow_pos_nonneg; lia. Qed.
Lemma p_half : forall n, 1 <= n -> 2 ^ n = 2 * 2 ^ (n - 1).
Proof. intros n H. rewrite <- Z.pow_succ_r by lia. f_equal. lia. Qed.
Lemma mod_mod_pow : forall m n z, 0 <= m <= n -> (z mod 2 ^ n) mod 2 ^ m = z mod 2 ^ m.
Proof.
  intros m n z H. symmetry. apply Znumtheory.Zmod_div_mod; [apply p_pos; lia|apply p_pos; lia|].
  exists (2 ^ (n - m)). rewrite <- Z.pow_add_r by lia. f_equal. lia.
Qed.
Lemma eqm_le : forall m n a b, 0 <= m <= n -> a mod 2 ^ n = b mod 2 ^ n -> a mod 2 ^ m = b mod 2 ^ m.
Proof. intros m n a b H E. rewrite <- (mod_mod_pow m n a H), <- (mod_mod_pow m n b H), E. reflexivity. Qed.

Lemma wrap_mod : forall T z, 1 <= sbits T -> wrap T z mod 2 ^ sbits T = z mod 2 ^ sbits T.
Proof.
  intros T z H. unfold wrap. destruct (ssgn T); [now apply swrap_mod|].
  apply Z.mod_mod. pose proof (p_pos (sbits T)). lia.
Qed.
Lemma wrap_eqm : forall T a b, 1 <= sbits T -> a mod 2 ^ sbits T = b mod 2 ^ sbits T -> wrap T a = wrap T b.
Proof. intros T a b H E. unfold wrap. destruct (ssgn T); auto. now apply swrap_eqm. Qed.
Lemma wrap_small : forall T z, 1 <= sbits T -> s_lo T <= z <= s_hi T -> wrap T z = z.
Proof.
  intros T z H. unfold s_lo, s_hi, wrap. destruct (ssgn T); intros B; [apply swrap_small; lia|apply Z.mod_small; lia].
Qed.
Lemma wrap_wrap : forall S T z, 1 <= sbits T <= sbits S -> wrap T (wrap S z) = wrap T z.
Proof. intros S T z H. apply wrap_eqm; [lia|]. apply (eqm_le _ (sbits S)); [lia|]. apply wrap_mod; lia. Qed.
Lemma wrap_mul : forall T a b, 1 <= sbits T -> wrap T (wrap T a * b) = wrap T (a * b).
Proof.
  intros T a b H. apply wrap_eqm; auto. rewrite Z.mul_mod, wrap_mod, <- Z.mul_mod; auto; pose proof (p_pos (sbits T)); lia.
Qed.
Lemma wrap_range : forall T z, 1 <= sbits T -> s_lo T <= wrap T z <= s_hi T.
Proof.
  intros T z H. pose proof (p_pos (sbits T)) as P. pose proof (p_half (sbits T) H) as E. unfold wrap, s_lo, s_hi, swrap. destruct (ssgn T).
  - pose proof (Z.mod_pos_bound (z + 2 ^ (sbits T - 1)) (2 ^ sbits T)). lia.
  - pose proof (Z.mod_pos_bound z (2 ^ sbits T)). lia.
Qed.

Lemma support_facts : forall F S, std_support F = Some S ->
  1 <= isz F + frsz F <= sbits S /\ ssgn S = sgn F /\ In (sbits S) [8; 16; 32; 64; 128] /\ fx_c_bit_size F = Some (sbits S).
Proof.
  intros F S H. unfold std_support in H. destruct (fx_c_bit_size F) as [n|] eqn:E; [|discriminate].
  inversion H. cbn [sbits ssgn]. destruct (fx_c_bit_size_minimal F) as [A B]. destruct (A n E) as [A1 [A2 _]].
  assert (1 <= isz F + frsz F <= 128) by (apply B; eauto). repeat (split; auto); lia.
Qed.
Lemma fits_support : forall F S k, std_support F = Some S -> fits F k -> s_lo S <= k <= s_hi S.
Proof.
  intros F S k H [A B]. destruct (support_facts F S H) as [P [E _]]. unfold fx_lo, fx_hi in *. unfold s_lo, s_hi. rewrite E.
  destruct (sgn F).
  - assert (2 ^ (isz F + frsz F - 1) <= 2 ^ (sbits S - 1)) by (apply Z.pow_le_mono_r; lia). lia.
  - assert (2 ^ (isz F + frsz F) <= 2 ^ sbits S) by (apply Z.pow_le_mono_r; lia). lia.
Qed.
Lemma promoted_bits : forall T, sbits (promoted T) = Z.max 32 (sbits T).
Proof. intros T. unfold promoted. destruct (Z.ltb_spec (sbits T) 32); cbn [sbits]; lia. Qed.

(* floor of k * 2^s *)
Definition fl (k s : Z) : Z := if 0 <=? s then k * 2 ^ s else k / 2 ^ (- s).
Lemma div_le_mul : forall a d b, 0 < d -> (b * d <= a <-> b <= a / d).
Proof.
  intros a d b H. split; intros L.
  - apply Z.div_le_lower_bound; [auto|lia].
  - pose proof (Z.mul_div_le a d H). nia.
Qed.
Lemma fl_spec : forall F v k f r, (v == inject_Z k * p2 (- f))%Q -> (rounded_down F v r <-> r = fl k (frsz F - f)).
Proof.
  intros F v k f r Hv. unfold rounded_down, fx_ulp. rewrite Hv.
  assert (A : forall z, (inject_Z z * p2 (- frsz F) <= inject_Z k * p2 (- f))%Q <-> z <= fl k (frsz F - f)).
  { intros z. unfold fl. destruct (Z.leb_spec 0 (frsz F - f)) as [L|L].
    - rewrite <- (scale_le _ _ (frsz F)).
      setoid_replace (inject_Z z * p2 (- frsz F) * p2 (frsz F))%Q with (inject_Z z) by (rewrite <- Qmult_assoc, p2_opp; ring).
      setoid_replace (inject_Z k * p2 (- f) * p2 (frsz F))%Q with (inject_Z (k * 2 ^ (frsz F - f))).
      + apply inj_le_iff.
      + rewrite inject_Z_mult, <- p2_Z by lia. rewrite <- Qmult_assoc, <- p2_plus. replace (- f + frsz F) with (frsz F - f) by lia. reflexivity.
    - rewrite <- (scale_le _ _ f).
      setoid_replace (inject_Z k * p2 (- f) * p2 f)%Q with (inject_Z k) by (rewrite <- Qmult_assoc, p2_opp; ring).
      setoid_replace (inject_Z z * p2 (- frsz F) * p2 f)%Q with (inject_Z (z * 2 ^ (- (frsz F - f)))).
      + rewrite inj_le_iff. apply div_le_mul. apply p_pos. lia.
      + rewrite inject_Z_mult, <- p2_Z by lia. rewrite <- Qmult_assoc, <- p2_plus. replace (- frsz F + f) with (- (frsz F - f)) by lia. reflexivity. }
  rewrite A. assert (B : (inject_Z k * p2 (- f) < inject_Z (r + 1) * p2 (- frsz F))%Q <-> ~ r + 1 <= fl k (frsz F - f)).
  { rewrite <- A. split; [intros X; lra|intros X; now apply Qnot_le_lt]. }
  rewrite B. lia.
Qed.
Lemma fl_0 : forall k, fl k 0 = k. Proof. intros. unfold fl. cbn. lia. Qed.
Lemma fl_fl : forall k a b, b <= 0 -> fl (fl k a) b = fl k (a + b).
Proof.
  intros k a b H. unfold fl. destruct (Z.leb_spec 0 a) as [A|A], (Z.leb_spec 0 b) as [B|B], (Z.leb_spec 0 (a + b)) as [C|C]; try lia.
  - assert (b = 0) by lia. subst b. rewrite Z.add_0_r. change (2 ^ 0) with 1. lia.
  - replace a with ((a + b) + - b) at 1 by lia. rewrite Z.pow_add_r, Z.mul_assoc by lia. apply Z.div_mul. pose proof (p_pos (- b)). lia.
  - replace (- b) with (- (a + b) + a) by lia. rewrite Z.pow_add_r by lia. pose proof (p_pos a). pose proof (p_pos (- (a + b))). rewrite Z.div_mul_cancel_r by lia. reflexivity.
  - assert (b = 0) by lia. subst b. rewrite Z.add_0_r. change (2 ^ 0) with 1. lia.
  - replace (- (a + b)) with (- a + - b) by lia. rewrite Z.pow_add_r by lia. pose proof (p_pos (- a)). pose proof (p_pos (- b)). rewrite Z.div_div by lia. reflexivity.
Qed.
Lemma fl_nonneg : forall k s, 0 <= k -> 0 <= fl k s.
Proof.
  intros k s H. unfold fl. destruct (Z.leb_spec 0 s); [pose proof (p_pos s); nia|apply Z.div_pos; [auto|apply p_pos; lia]].
Qed.

Lemma fx_eqb_eq : forall F G, fx_eqb F G = true <-> F = G.
Proof.
  intros [a b c] [a' b' c']. unfold fx_eqb. cbn. rewrite !andb_true_iff, !Z.eqb_eq, eqb_true_iff. split; [intros [[-> ->] ->]; reflexivity|].
  intros H; inversion H; auto.
Qed.

(* conditions under which a conversion is sound for the integer k *)
Definition dom (Fi Fo : fxfmt) (ni no k : Z) : Prop :=
  Z.abs (frsz Fo - frsz Fi) < Z.max 32 (Z.max ni no) /\ (sgn Fo = true \/ no < 128) /\
  (0 <= k \/ frsz Fi <= frsz Fo \/ no + (frsz Fi - frsz Fo) <= ni).

Lemma mask_eq : forall Fo So z, std_support Fo = Some So -> (sgn Fo = true \/ sbits So < 128) ->
  mask_out Fo So (wrap So z) = Val (if sgn Fo then wrap So z else z mod 2 ^ (isz Fo + frsz Fo)).
Proof.
  intros Fo So z HS Hd. destruct (support_facts Fo So HS) as [P [E _]]. unfold mask_out. destruct (sgn Fo) eqn:G; cbn [negb]; auto.
  destruct Hd as [Hd|Hd]; [discriminate|]. unfold c_and. rewrite E. replace (sbits So =? 128) with false by (symmetry; apply Z.eqb_neq; lia). cbn [andb].
  f_equal. replace (2 ^ (isz Fo + frsz Fo) - 1) with (Z.ones (isz Fo + frsz Fo)) by (rewrite Z.ones_equiv; lia).
  rewrite Z.land_ones by lia. rewrite wrap_small.
  - apply (eqm_le _ (sbits So)); [lia|]. apply wrap_mod. lia.
  - lia.
  - unfold s_lo, s_hi. rewrite E. pose proof (Z.mod_pos_bound (wrap So z) (2 ^ (isz Fo + frsz Fo)) (p_pos (isz Fo + frsz Fo) ltac:(lia))).
    assert (2 ^ (isz Fo + frsz Fo) <= 2 ^ sbits So) by (apply Z.pow_le_mono_r; lia). lia.
Qed.

Lemma conv_exact : forall Fi Fo Si So k, std_support Fi = Some Si -> std_support Fo = Some So -> Fi <> Fo ->
  s_lo Si <= k <= s_hi Si -> dom Fi Fo (sbits Si) (sbits So) k ->
  conv Fi Fo k = Val (if sgn Fo then wrap So (fl k (frsz Fo - frsz Fi)) else fl k (frsz Fo - frsz Fi) mod 2 ^ (isz Fo + frsz Fo)).
Proof.
  intros Fi Fo Si So k HI HO NE HK [D1 [D2 D3]]. unfold conv. rewrite HI, HO.
  replace (fx_eqb Fi Fo) with false by (symmetry; apply not_true_iff_false; rewrite fx_eqb_eq; auto).
  destruct (support_facts Fi Si HI) as [PI [EI _]]. destruct (support_facts Fo So HO) as [PO [EO _]].
  set (s := frsz Fo - frsz Fi) in *.
  assert (KB : 0 <= k -> k < 2 ^ sbits Si).
  { intros K0. unfold s_hi in HK. pose proof (p_half (sbits Si)). destruct (ssgn Si); lia. }
  destruct (Z.leb_spec (sbits Si) (sbits So)) as [L|L].
  - assert (E : align So (wrap So k) s = Val (wrap So (fl k s))).
    { unfold align, c_shl, c_lshr, fl. rewrite promoted_bits. destruct (Z.ltb_spec 0 s) as [S1|S1].
      - replace (s <? Z.max 32 (sbits So)) with true by (symmetry; apply Z.ltb_lt; lia). replace (0 <=? s) with true by (symmetry; apply Z.leb_le; lia).
        now rewrite wrap_mul by lia.
      - destruct (Z.ltb_spec s 0) as [S2|S2].
        + replace (- s <? Z.max 32 (sbits So)) with true by (symmetry; apply Z.ltb_lt; lia). replace (0 <=? s) with false by (symmetry; apply Z.leb_gt; lia).
          rewrite wrap_mod by lia. assert (K0 : 0 <= k) by lia.
          rewrite Z.mod_small; auto. split; auto. eapply Z.lt_le_trans; [apply KB; auto|]. apply Z.pow_le_mono_r; lia.
        + replace s with 0 by lia. change (0 <=? 0) with true. cbn iota. change (2 ^ 0) with 1. now rewrite Z.mul_1_r. }
    rewrite E. cbn [cbind]. apply mask_eq; auto.
  - assert (E : exists x, align Si k s = Val x /\ x mod 2 ^ sbits So = fl k s mod 2 ^ sbits So).
    { unfold align, c_shl, c_lshr, fl. rewrite promoted_bits. destruct (Z.ltb_spec 0 s) as [S1|S1].
      - replace (s <? Z.max 32 (sbits Si)) with true by (symmetry; apply Z.ltb_lt; lia). replace (0 <=? s) with true by (symmetry; apply Z.leb_le; lia).
        eexists. split; [reflexivity|]. apply (eqm_le _ (sbits Si)); [lia|]. apply wrap_mod. lia.
      - destruct (Z.ltb_spec s 0) as [S2|S2].
        + replace (- s <? Z.max 32 (sbits Si)) with true by (symmetry; apply Z.ltb_lt; lia). replace (0 <=? s) with false by (symmetry; apply Z.leb_gt; lia).
          eexists. split; [reflexivity|]. etransitivity; [apply (eqm_le _ (sbits Si)); [lia|]; apply wrap_mod; lia|].
          destruct (Z_le_gt_dec 0 k) as [K0|K0]; [rewrite (Z.mod_small k) by auto; reflexivity|].
          assert (EM : k mod 2 ^ sbits Si = k + 2 ^ (sbits Si + s - sbits So) * 2 ^ sbits So * 2 ^ (- s)).
          { unfold s. rewrite <- !Z.pow_add_r by lia. fold s. replace (sbits Si + s - sbits So + sbits So + - s) with (sbits Si) by lia.
            symmetry. apply (Zmod_unique _ _ (-1)).
            - unfold s_lo in HK. pose proof (p_half (sbits Si)). pose proof (p_pos (sbits Si - 1)). destruct (ssgn Si); lia.
            - ring. }
          rewrite EM, Z.div_add by (pose proof (p_pos (- s)); lia). rewrite Z.mod_add; [reflexivity|]. pose proof (p_pos (sbits So)); lia.
        + replace s with 0 by lia. change (0 <=? 0) with true. cbn iota. change (2 ^ 0) with 1. rewrite Z.mul_1_r. eexists. split; reflexivity. }
    destruct E as [x [E1 E2]]. rewrite E1. cbn [cbind]. rewrite (wrap_eqm So x (fl k s)) by (auto; lia). apply mask_eq; auto.
Qed.

Lemma fits_mod : forall F S z, std_support F = Some S -> fits F z -> (if sgn F then wrap S z else z mod 2 ^ (isz F + frsz F)) = z.
Proof.
  intros F S z H Hf. pose proof (fits_support F S z H Hf) as B. destruct (support_facts F S H) as [P _].
  destruct (sgn F) eqn:E; [apply wrap_small; auto; lia|]. destruct Hf as [A C]. unfold fx_lo, fx_hi in A, C. rewrite E in A, C. apply Z.mod_small. lia.
Qed.

(* either no conversion or a sound one *)
Definition safe (Fi Fo : fxfmt) (k : Z) : Prop :=
  Fi = Fo \/ exists ni no, fx_c_bit_size Fi = Some ni /\ fx_c_bit_size Fo = Some no /\ dom Fi Fo ni no k.

Lemma safe_support : forall Fi Fo k, Fi <> Fo -> safe Fi Fo k -> exists Si So, std_support Fi = Some Si /\ std_support Fo = Some So /\ dom Fi Fo (sbits Si) (sbits So) k.
Proof.
  intros Fi Fo k NE [H|[ni [no [A [B C]]]]]; [contradiction|]. unfold std_support. rewrite A, B. do 2 eexists. split; [reflexivity|]. split; [reflexivity|]. exact C.
Qed.

Lemma conv_fits : forall Fi Fo Si k, std_support Fi = Some Si -> s_lo Si <= k <= s_hi Si -> safe Fi Fo k -> fits Fo (fl k (frsz Fo - frsz Fi)) ->
  conv Fi Fo k = Val (fl k (frsz Fo - frsz Fi)).
Proof.
  intros Fi Fo Si k HI HK HS HF. destruct (fx_eqb Fi Fo) eqn:E.
  - unfold conv. rewrite E. apply fx_eqb_eq in E. subst Fo. rewrite Z.sub_diag, fl_0. reflexivity.
  - assert (NE : Fi <> Fo) by (intros X; apply fx_eqb_eq in X; congruence).
    destruct (safe_support _ _ _ NE HS) as [Si' [So [A [B C]]]]. assert (Si' = Si) by congruence. subst Si'.
    rewrite (conv_exact Fi Fo Si So k A B NE HK C). rewrite (fits_mod Fo So _ B HF). reflexivity.
Qed.

Lemma arith_ok : forall T z, 1 <= sbits T -> s_lo T <= z <= s_hi T -> c_arith T z = Val z.
Proof.
  intros T z H B. unfold c_arith. rewrite wrap_small by auto. unfold promoted. destruct (Z.ltb_spec (sbits T) 32) as [L|L].
  - cbn [ssgn]. assert (- 2 ^ 31 <= z <= 2 ^ 31 - 1).
    { unfold s_lo, s_hi in B. destruct (ssgn T).
      - assert (2 ^ (sbits T - 1) <= 2 ^ 31) by (apply Z.pow_le_mono_r; lia). lia.
      - assert (2 ^ sbits T <= 2 ^ 31) by (apply Z.pow_le_mono_r; lia). pose proof (p_pos 31). lia. }
    replace ((s_lo _ <=? z) && (z <=? s_hi _)) with true; [reflexivity|]. symmetry. apply andb_true_iff. unfold s_lo, s_hi. cbn [sbits ssgn]. rewrite !Z.leb_le. lia.
  - replace ((s_lo T <=? z) && (z <=? s_hi T)) with true; [now rewrite andb_false_r|]. symmetry. apply andb_true_iff. rewrite !Z.leb_le. lia.
Qed.
