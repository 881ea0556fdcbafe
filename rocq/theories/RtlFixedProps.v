(* Hardware lowering of fixed-point operations, VHDL constants, slices
   (C19, C46, C56, C57). *)
Require Import ZArith QArith Qround Qabs Bool List Lia Lqa.
From Verif Require Import QUtil FixedModel FixedSpec FixedProps SizingModel SizingProps RtlFixedModel.
Import ListNotations.
Open Scope Z_scope.

(* the vector a carries the value v of the format F, whose scaled integer is k *)
Definition carries (F : fxfmt) (a : bv) (v : Q) (k : Z) : Prop :=
  fx_ok F /\ fx_is F v k /\ bw a = isz F + frsz F /\ bval a = k mod 2 ^ (isz F + frsz F).

(* the vector a is the n-bit word of v rounded down to f fraction bits *)
Definition floor_word (O : fxfmt) (a : bv) (v : Q) : Prop :=
  bw a = isz O + frsz O /\
  bval a = Qfloor (v * p2 (frsz O)) mod 2 ^ (isz O + frsz O).

(* ---- helpers ---- *)
Lemma pow_split : forall n, 1 <= n -> 2 ^ n = 2 * 2 ^ (n - 1).
Proof. intros. rewrite <- Z.pow_succ_r by lia. f_equal. lia. Qed.

Lemma word_msb : forall n k, 1 <= n -> - 2 ^ (n - 1) <= k < 2 ^ (n - 1) ->
  Z.testbit (k mod 2 ^ n) (n - 1) = (k <? 0).
Proof.
  intros n k H B. rewrite Z.mod_pow2_bits_low by lia.
  destruct (Z.ltb_spec k 0).
  - replace k with (k mod 2 ^ (n - 1) + (-1) * 2 ^ (n - 1)).
    + rewrite <- Z.shiftl_mul_pow2 by lia.
      rewrite Z.testbit_eqb by lia.
      replace ((k mod 2 ^ (n - 1) + Z.shiftl (-1) (n - 1)) / 2 ^ (n - 1)) with (-1); [reflexivity|].
      rewrite Z.shiftl_mul_pow2 by lia. rewrite Z.div_add by lia.
      rewrite Z.div_small; [lia|]. apply Z.mod_pos_bound; lia.
    + replace (k mod 2 ^ (n - 1)) with (k + 2 ^ (n - 1)); [lia|].
      symmetry. replace k with (k + 2 ^ (n - 1) + (-1) * 2 ^ (n - 1)) at 1 by lia.
      rewrite Z_mod_plus_full. apply Z.mod_small. lia.
  - rewrite Z.testbit_eqb by lia. rewrite Z.div_small by lia. reflexivity.
Qed.

Lemma word_neg : forall n k, 1 <= n -> - 2 ^ n <= k < 0 -> k mod 2 ^ n = k + 2 ^ n.
Proof.
  intros n k H B. symmetry. apply Z.mod_unique_pos with (-1); lia.
Qed.

Definition zrange (s : bool) (n k : Z) : Prop :=
  if s then - 2 ^ (n - 1) <= k < 2 ^ (n - 1) else 0 <= k < 2 ^ n.

Lemma bv_num_word : forall s n k, 1 <= n -> zrange s n k ->
  bv_num s (mkbv n (k mod 2 ^ n)) = k.
Proof.
  intros s n k H B. unfold bv_num; cbn [bw bval]. destruct s; cbn [andb zrange] in *.
  - rewrite word_msb by auto. pose proof (pow_split n H). destruct (Z.ltb_spec k 0).
    + rewrite word_neg by lia. lia.
    + apply Z.mod_small. lia.
  - apply Z.mod_small. auto.
Qed.

Lemma ext_word : forall (s : bool) n d k, 1 <= n -> 0 <= d -> zrange s n k ->
  (if s then sext (mkbv n (k mod 2 ^ n)) d else zext (mkbv n (k mod 2 ^ n)) d)
    = mkbv (n + d) (k mod 2 ^ (n + d)).
Proof.
  intros s n d k H D B.
  pose proof (pow2_pos n ltac:(lia)). pose proof (pow2_pos d ltac:(lia)).
  assert (P : 2 ^ (n + d) = 2 ^ n * 2 ^ d) by (rewrite Z.pow_add_r by lia; reflexivity).
  destruct s; cbn [zrange] in B; pose proof (pow_split n H).
  - unfold sext. destruct (Z.eqb_spec d 0).
    { subst. rewrite Z.add_0_r. reflexivity. }
    cbn [bw bval]. f_equal. rewrite word_msb by auto. destruct (Z.ltb_spec k 0).
    + rewrite (word_neg n), (word_neg (n + d)) by (try lia; rewrite ?P; nia). rewrite P. nia.
    + rewrite !Z.mod_small by (rewrite ?P; nia). lia.
  - unfold zext. destruct (Z.eqb_spec d 0).
    { subst. rewrite Z.add_0_r. reflexivity. }
    cbn [bw bval]. f_equal. rewrite !Z.mod_small by (rewrite ?P; nia). reflexivity.
Qed.

Lemma rzext_word : forall n d k, 0 <= n -> 0 <= d ->
  rzext (mkbv n (k mod 2 ^ n)) d = mkbv (n + d) ((k * 2 ^ d) mod 2 ^ (n + d)).
Proof.
  intros n d k H D. unfold rzext. destruct (Z.eqb_spec d 0).
  { subst. rewrite Z.add_0_r, Z.mul_1_r. reflexivity. }
  cbn [bw bval]. f_equal. rewrite Z.pow_add_r by lia. rewrite Z.mul_mod_distr_r; auto.
  - pose proof (pow2_pos n ltac:(lia)). lia.
  - pose proof (pow2_pos d ltac:(lia)). lia.
Qed.

Lemma slice_low_word : forall n m k, 0 <= m <= n ->
  slice (mkbv n (k mod 2 ^ n)) 0 (m - 1) = mkbv m (k mod 2 ^ m).
Proof.
  intros n m k H. unfold slice. cbn [bval]. rewrite Z.shiftr_0_r.
  replace (m - 1 - 0 + 1) with m by lia. f_equal.
  replace n with (m + (n - m)) by lia. rewrite Z.pow_add_r by lia.
  rewrite Z.rem_mul_r by (try apply Z.pow_nonzero; try apply Z.pow_pos_nonneg; lia).
  rewrite Z.mul_comm, Z_mod_plus_full, Z.mod_mod; auto. apply Z.pow_nonzero; lia.
Qed.

Lemma mod_div_pow : forall k n d, 0 <= d <= n -> (k mod 2 ^ n) / 2 ^ d = (k / 2 ^ d) mod 2 ^ (n - d).
Proof.
  intros k n d H. replace n with (d + (n - d)) at 1 by lia. rewrite Z.pow_add_r by lia.
  rewrite Z.rem_mul_r by (try apply Z.pow_nonzero; try apply Z.pow_pos_nonneg; lia).
  rewrite Z.mul_comm, Z.div_add by (apply Z.pow_nonzero; lia).
  rewrite Z.div_small; [lia|]. apply Z.mod_pos_bound. apply Z.pow_pos_nonneg; lia.
Qed.

Lemma slice_high_word : forall n d k, 0 <= d <= n ->
  slice (mkbv n (k mod 2 ^ n)) d (n - 1) = mkbv (n - d) ((k / 2 ^ d) mod 2 ^ (n - d)).
Proof.
  intros n d k H. unfold slice. cbn [bval]. replace (n - 1 - d + 1) with (n - d) by lia. f_equal.
  rewrite Z.shiftr_div_pow2 by lia. rewrite mod_div_pow by lia. apply Z.mod_mod. apply Z.pow_nonzero; lia.
Qed.

(* floor of k * 2^-f rescaled to g fraction bits *)
Lemma floor_rescale : forall k f g,
  Qfloor (inject_Z k * p2 (- f) * p2 g) = if f <=? g then k * 2 ^ (g - f) else k / 2 ^ (f - g).
Proof.
  intros k f g.
  assert (E : (inject_Z k * p2 (- f) * p2 g == inject_Z k * p2 (g - f))%Q).
  { rewrite <- Qmult_assoc, <- p2_plus. replace (- f + g) with (g - f) by lia. reflexivity. }
  rewrite (Qfloor_comp _ _ E). destruct (Z.leb_spec f g).
  - rewrite p2_Z, <- inject_Z_mult by lia. apply Qfloor_Z.
  - pose proof (pow2_pos (f - g) ltac:(lia)) as P.
    pose proof (Z.div_mod k (2 ^ (f - g)) ltac:(lia)) as D.
    pose proof (Z.mod_pos_bound k (2 ^ (f - g)) P) as M.
    assert (X : (p2 (f - g) * p2 (g - f) == 1)%Q).
    { replace (g - f) with (- (f - g)) by lia. apply p2_opp_r. }
    apply Qfloor_unique.
    + setoid_replace (inject_Z (k / 2 ^ (f - g))) with (inject_Z (k / 2 ^ (f - g)) * p2 (f - g) * p2 (g - f))%Q using relation Qeq
        by (rewrite <- Qmult_assoc, X; ring).
      apply scale_le. rewrite p2_Z, <- inject_Z_mult by lia. apply inj_le_iff. nia.
    + setoid_replace (inject_Z (k / 2 ^ (f - g) + 1)) with (inject_Z (k / 2 ^ (f - g) + 1) * p2 (f - g) * p2 (g - f))%Q using relation Qeq
        by (rewrite <- Qmult_assoc, X; ring).
      apply scale_lt. rewrite p2_Z, <- inject_Z_mult by lia. apply inj_lt_iff. nia.
Qed.

Lemma bv_eta : forall a, a = mkbv (bw a) (bval a).
Proof. intros [w v]; reflexivity. Qed.

(* the LSB step, common to adaptation and conversion *)
Lemma lsb_step : forall n k f O, frsz O <= f + n \/ True -> 0 <= n -> n = isz O + f -> 1 <= isz O + frsz O ->
  (if 0 <=? frsz O - f then rzext (mkbv n (k mod 2 ^ n)) (frsz O - f)
   else slice (mkbv n (k mod 2 ^ n)) (- (frsz O - f)) (n - 1))
  = mkbv (isz O + frsz O) (Qfloor (inject_Z k * p2 (- f) * p2 (frsz O)) mod 2 ^ (isz O + frsz O)).
Proof.
  intros n k f O _ Hn En HO. rewrite floor_rescale.
  destruct (Z.leb_spec 0 (frsz O - f)).
  - rewrite rzext_word by lia. rewrite (proj2 (Z.leb_le f (frsz O))) by lia.
    replace (n + (frsz O - f)) with (isz O + frsz O) by lia. reflexivity.
  - rewrite slice_high_word by lia. rewrite (proj2 (Z.leb_gt f (frsz O))) by lia.
    replace (n - - (frsz O - f)) with (isz O + frsz O) by lia.
    replace (- (frsz O - f)) with (f - frsz O) by lia. reflexivity.
Qed.

Lemma adapt_word : forall k i f O, 1 <= i + f -> 1 <= isz O + f -> 1 <= isz O + frsz O ->
  (isz O <= i \/ zrange (sgn O) (i + f) k) ->
  adapt_fixed (mkbv (f + i) (k mod 2 ^ (f + i))) i f O
  = mkbv (isz O + frsz O) (Qfloor (inject_Z k * p2 (- f) * p2 (frsz O)) mod 2 ^ (isz O + frsz O)).
Proof.
  intros k i f O H1 H2 H3 B. unfold adapt_fixed.
  assert (M : (if 0 <=? isz O - i
     then if sgn O then sext (mkbv (f + i) (k mod 2 ^ (f + i))) (isz O - i)
          else zext (mkbv (f + i) (k mod 2 ^ (f + i))) (isz O - i)
     else slice (mkbv (f + i) (k mod 2 ^ (f + i))) 0 (f + i - 1 + (isz O - i)))
     = mkbv (isz O + f) (k mod 2 ^ (isz O + f))).
  { destruct (Z.leb_spec 0 (isz O - i)).
    - destruct (Z.eq_dec (isz O) i) as [E|E].
      + rewrite E. replace (i - i) with 0 by lia. unfold sext, zext. cbn [Z.eqb].
        rewrite (Z.add_comm f i). destruct (sgn O); reflexivity.
      + destruct B as [B|B]; [lia|]. rewrite (Z.add_comm f i).
        rewrite ext_word by (auto; lia). replace (i + f + (isz O - i)) with (isz O + f) by lia. reflexivity.
    - replace (f + i - 1 + (isz O - i)) with (isz O + f - 1) by lia.
      apply slice_low_word. lia. }
  rewrite M. cbn [bw]. apply lsb_step; auto; lia.
Qed.

Lemma carries_word : forall F a v k, carries F a v k ->
  a = mkbv (isz F + frsz F) (k mod 2 ^ (isz F + frsz F)) /\ zrange (sgn F) (isz F + frsz F) k /\
  1 <= isz F + frsz F /\ (v == inject_Z k * p2 (- frsz F))%Q.
Proof.
  intros F a v k [O [[R E] [W V]]]. split; [|split; [|split]]; auto.
  - rewrite (bv_eta a), W, V. reflexivity.
  - unfold zrange. unfold fx_lo, fx_hi in R. destruct (sgn F); lia.
Qed.

Lemma zrange_shift : forall s n k d, 1 <= n -> 0 <= d -> zrange s n k -> zrange s (n + d) (k * 2 ^ d).
Proof.
  intros s n k d H D B. pose proof (pow2_pos d ltac:(lia)). unfold zrange in *. destruct s.
  - replace (n + d - 1) with (n - 1 + d) by lia. rewrite Z.pow_add_r by lia. nia.
  - rewrite Z.pow_add_r by lia. nia.
Qed.

Lemma zrange_wider : forall s n m k, 1 <= n -> n <= m -> zrange s n k -> zrange s m k.
Proof.
  intros s n m k H D B. unfold zrange in *. destruct s.
  - assert (2 ^ (n - 1) <= 2 ^ (m - 1)) by (apply Z.pow_le_mono_r; lia). lia.
  - assert (2 ^ n <= 2 ^ m) by (apply Z.pow_le_mono_r; lia). lia.
Qed.

Lemma rtl_ext_word : forall F a v k i f, carries F a v k -> frsz F <= f -> isz F <= i ->
  rtl_ext F a i f = mkbv (i + f) ((k * 2 ^ (f - frsz F)) mod 2 ^ (i + f)).
Proof.
  intros F a v k i f C Hf Hi. destruct (carries_word _ _ _ _ C) as [E [B [N _]]]. subst a.
  unfold rtl_ext. rewrite rzext_word by lia.
  rewrite ext_word.
  - replace (isz F + frsz F + (f - frsz F) + (i - isz F)) with (i + f) by lia. reflexivity.
  - lia.
  - lia.
  - apply zrange_shift; auto; lia.
Qed.

(* result of a modular operation does not depend on the reading of the words *)
Lemma bv_num_mod : forall s n k, 0 <= n -> bv_num s (mkbv n (k mod 2 ^ n)) mod 2 ^ n = k mod 2 ^ n.
Proof.
  intros s n k H. unfold bv_num; cbn [bw bval].
  destruct (s && _).
  - replace (k mod 2 ^ n - 2 ^ n) with (k mod 2 ^ n + (-1) * 2 ^ n) by lia.
    rewrite Z_mod_plus_full. apply Z.mod_mod. apply Z.pow_nonzero; lia.
  - apply Z.mod_mod. apply Z.pow_nonzero; lia.
Qed.

(* ---- C56: addition, subtraction, multiplication ---- *)

(* intermediate format of the sum, read with the output's signedness *)
Definition sum_format (L R O : fxfmt) : fxfmt :=
  {| isz := Z.max (isz L) (isz R) + 1; frsz := Z.max (frsz L) (frsz R); sgn := sgn O |}.
Definition mul_format (L R O : fxfmt) : fxfmt :=
  {| isz := isz L + isz R + (if xorb (sgn L) (sgn R) then 1 else 0); frsz := frsz L + frsz R; sgn := sgn O |}.

Lemma grid_value_z : forall F v k, fx_ok F -> (v == inject_Z k * p2 (- frsz F))%Q -> fx_value F v ->
  zrange (sgn F) (isz F + frsz F) k.
Proof.
  intros F v k O E [j [R J]].
  assert (j = k).
  { apply inject_Z_injective. rewrite <- (scale_back j (frsz F)), <- (scale_back k (frsz F)), <- E, <- J. reflexivity. }
  subst j. unfold zrange. unfold fx_lo, fx_hi in R. destruct (sgn F); lia.
Qed.

Lemma rtl_addsub_correct : forall op qop L R O a b x y kx ky,
  (forall u v, op u v mod 2 ^ (Z.max (frsz L) (frsz R) + (Z.max (isz L) (isz R) + 1)) =
     op (u mod 2 ^ (Z.max (frsz L) (frsz R) + (Z.max (isz L) (isz R) + 1)))
        (v mod 2 ^ (Z.max (frsz L) (frsz R) + (Z.max (isz L) (isz R) + 1)))
       mod 2 ^ (Z.max (frsz L) (frsz R) + (Z.max (isz L) (isz R) + 1))) ->
  (forall u v s, (qop (inject_Z u * s) (inject_Z v * s) == inject_Z (op u v) * s)%Q) ->
  (forall u u' v v', (u == u')%Q -> (v == v')%Q -> (qop u v == qop u' v')%Q) ->
  carries L a x kx -> carries R b y ky -> fx_ok O -> 1 <= isz O + Z.max (frsz L) (frsz R) ->
  (isz O <= Z.max (isz L) (isz R) + 1 \/ fx_value (sum_format L R O) (qop x y)) ->
  floor_word O (rtl_addsub op L R O a b) (qop x y).
Proof.
  intros op qop L R O a b x y kx ky Hmod Hq Hc CL CR HO HO2 HB.
  destruct (carries_word _ _ _ _ CL) as [_ [BL [NL EL]]]. destruct (carries_word _ _ _ _ CR) as [_ [BR [NR ER]]].
  unfold rtl_addsub.
  set (f := Z.max (frsz L) (frsz R)) in *. set (i := Z.max (isz L) (isz R) + 1) in *.
  rewrite (rtl_ext_word L a x kx i f CL) by lia. rewrite (rtl_ext_word R b y ky i f CR) by lia.
  set (u := kx * 2 ^ (f - frsz L)). set (v := ky * 2 ^ (f - frsz R)).
  assert (Eraw : op (bv_num (sgn L || sgn R) (mkbv (i + f) (u mod 2 ^ (i + f))))
            (bv_num (sgn L || sgn R) (mkbv (i + f) (v mod 2 ^ (i + f)))) mod 2 ^ (f + i) = op u v mod 2 ^ (f + i)).
  { rewrite (Z.add_comm i f). rewrite Hmod. rewrite !bv_num_mod by lia. rewrite <- Hmod. reflexivity. }
  rewrite Eraw.
  assert (Ex : (qop x y == inject_Z (op u v) * p2 (- f))%Q).
  { rewrite <- Hq. apply Hc.
    - rewrite EL. unfold u. rewrite inject_Z_mult, <- p2_Z, <- Qmult_assoc, <- p2_plus by lia.
      replace (f - frsz L + - f) with (- frsz L) by lia. reflexivity.
    - rewrite ER. unfold v. rewrite inject_Z_mult, <- p2_Z, <- Qmult_assoc, <- p2_plus by lia.
      replace (f - frsz R + - f) with (- frsz R) by lia. reflexivity. }
  unfold fx_ok in HO. rewrite adapt_word.
  - unfold floor_word; cbn [bw bval]. split; auto. f_equal. apply Qfloor_comp. rewrite Ex. reflexivity.
  - lia.
  - lia.
  - lia.
  - destruct HB as [HB|HB]; auto. right.
    apply (grid_value_z (sum_format L R O) (qop x y)); auto.
    unfold fx_ok, sum_format; cbn [isz frsz]. lia.
Qed.

(* the generated adder outputs the exact sum rounded down to the output
   precision, modulo the output width *)
Theorem rtl_add_correct : forall L R O a b x y kx ky,
  carries L a x kx -> carries R b y ky -> fx_ok O -> 1 <= isz O + Z.max (frsz L) (frsz R) ->
  (isz O <= Z.max (isz L) (isz R) + 1 \/ fx_value (sum_format L R O) (x + y)%Q) ->
  floor_word O (rtl_add L R O a b) (x + y)%Q.
Proof.
  intros. apply (rtl_addsub_correct Z.add Qplus) with kx ky; auto.
  - intros. apply Zplus_mod.
  - intros. rewrite inject_Z_plus. ring.
  - intros ? ? ? ? E1 E2. rewrite E1, E2. reflexivity.
Qed.

Theorem rtl_sub_correct : forall L R O a b x y kx ky,
  carries L a x kx -> carries R b y ky -> fx_ok O -> 1 <= isz O + Z.max (frsz L) (frsz R) ->
  (isz O <= Z.max (isz L) (isz R) + 1 \/ fx_value (sum_format L R O) (x - y)%Q) ->
  floor_word O (rtl_sub L R O a b) (x - y)%Q.
Proof.
  intros. apply (rtl_addsub_correct Z.sub Qminus) with kx ky; auto.
  - intros. apply Zminus_mod.
  - intros. unfold Z.sub. rewrite inject_Z_plus, inject_Z_opp. ring.
  - intros ? ? ? ? E1 E2. rewrite E1, E2. reflexivity.
Qed.

Theorem rtl_mul_correct : forall L R O a b x y kx ky,
  carries L a x kx -> carries R b y ky -> fx_ok O -> 1 <= isz O + (frsz L + frsz R) ->
  (isz O <= isz (mul_format L R O) \/ fx_value (mul_format L R O) (x * y)%Q) ->
  floor_word O (rtl_mul L R O a b) (x * y)%Q.
Proof.
  intros L R O a b x y kx ky CL CR HO HO2 HB.
  destruct (carries_word _ _ _ _ CL) as [EA [BL [NL EL]]]. destruct (carries_word _ _ _ _ CR) as [EB [BR [NR ER]]].
  unfold rtl_mul. subst a b.
  rewrite !bv_num_word by auto.
  set (f := frsz L + frsz R) in *.
  assert (Ei : isz (mul_format L R O) = isz L + isz R + (if xorb (sgn L) (sgn R) then 1 else 0)) by reflexivity.
  rewrite <- Ei. set (i := isz (mul_format L R O)) in *.
  assert (Ex : (x * y == inject_Z (kx * ky) * p2 (- f))%Q).
  { rewrite EL, ER, inject_Z_mult. unfold f. replace (- (frsz L + frsz R)) with (- frsz L + - frsz R) by lia.
    rewrite p2_plus. ring. }
  assert (Hi : 1 <= i + f) by (rewrite Ei; unfold f; destruct (xorb (sgn L) (sgn R)); lia).
  unfold fx_ok in HO. rewrite adapt_word.
  - unfold floor_word; cbn [bw bval]. split; auto. f_equal. apply Qfloor_comp. rewrite Ex. reflexivity.
  - lia.
  - lia.
  - lia.
  - destruct HB as [HB|HB]; auto. right.
    apply (grid_value_z (mul_format L R O) (x * y)%Q); auto.
Qed.

(* with the output format inferred by the sizing pass the product is exact *)
Theorem rtl_mul_sized_exact : forall L R a b x y kx ky,
  carries L a x kx -> carries R b y ky ->
  exists k, carries (size_mul L R) (rtl_mul L R (size_mul L R) a b) (x * y)%Q k.
Proof.
  intros L R a b x y kx ky CL CR.
  assert (OL : fx_ok L) by apply CL. assert (OR : fx_ok R) by apply CR.
  assert (VL : fx_value L x) by (exists kx; apply CL). assert (VR : fx_value R y) by (exists ky; apply CR).
  pose proof (size_mul_exact L R x y OL OR VL VR) as V.
  unfold fx_ok in OL, OR.
  assert (O : fx_ok (size_mul L R)).
  { unfold fx_ok, size_mul; cbn [isz frsz]. destruct (xorb (sgn R) (sgn L)); lia. }
  destruct (rtl_mul_correct L R (size_mul L R) a b x y kx ky CL CR O) as [W B].
  - unfold size_mul; cbn [isz frsz]. destruct (xorb (sgn R) (sgn L)); lia.
  - left. unfold size_mul, mul_format; cbn [isz]. rewrite xorb_comm. lia.
  - destruct V as [k [Rk Ek]]. exists k. split; [auto|]. split; [split; auto|]. split; auto.
    rewrite B. f_equal. apply Qfloor_int. rewrite Ek. apply scale_back.
Qed.

(* a wider signed output is wrong when the operands are unsigned: the carry is
   taken for a sign.  15 + 15 in FU4.0 with output FS8.0 gives -2 *)
Theorem rtl_add_wide_refuted :
  exists L R O a b x y, carries L a x (15) /\ carries R b y (15) /\ fx_ok O /\
    fx_value O (x + y)%Q /\ bv_num (sgn O) (rtl_add L R O a b) = -2.
Proof.
  exists (Build_fxfmt 4 0 false), (Build_fxfmt 4 0 false), (Build_fxfmt 8 0 true), (mkbv 4 15), (mkbv 4 15), (15 # 1)%Q, (15 # 1)%Q.
  assert (carries (Build_fxfmt 4 0 false) (mkbv 4 15) (15 # 1) 15).
  { unfold carries, fx_ok, fx_is, fx_lo, fx_hi; cbn. repeat split; try lia. }
  split; auto. split; auto. split; [unfold fx_ok; cbn; lia|]. split.
  { exists 30. unfold fx_is, fx_lo, fx_hi; cbn. split; [lia|reflexivity]. }
  vm_compute. reflexivity.
Qed.

Example rtl_arith_example :
  rtl_add (Build_fxfmt 4 0 true) (Build_fxfmt 2 2 false) (Build_fxfmt 5 1 true) (mkbv 4 13) (mkbv 4 7) = mkbv 6 61 /\
  rtl_mul (Build_fxfmt 4 0 true) (Build_fxfmt 4 0 false) (Build_fxfmt 9 0 true) (mkbv 4 13) (mkbv 4 15) = mkbv 9 (512 - 45) /\
  carries (Build_fxfmt 4 0 true) (mkbv 4 13) (-3 # 1) (-3).
Proof.
  split; [vm_compute; reflexivity|]. split; [vm_compute; reflexivity|].
  unfold carries, fx_ok, fx_is, fx_lo, fx_hi; cbn. repeat split; try lia.
Qed.

(* ---- C57: conversion, comparison, negation, shifts ---- *)

(* conversion rounds down to the output precision and wraps to the output width *)
Theorem rtl_conv_correct : forall A O a v k, carries A a v k -> fx_ok O -> 1 <= isz O + frsz A ->
  floor_word O (rtl_conv A O a) v.
Proof.
  intros A O a v k C HO H2. destruct (carries_word _ _ _ _ C) as [E [B [N Ev]]]. subst a.
  unfold fx_ok in HO. unfold rtl_conv.
  set (n := isz A + frsz A) in *.
  assert (M : (if 0 <? isz O - isz A
     then if sgn A then sext (mkbv n (k mod 2 ^ n)) (isz O - isz A) else zext (mkbv n (k mod 2 ^ n)) (isz O - isz A)
     else if isz O - isz A <? 0 then slice (mkbv n (k mod 2 ^ n)) 0 (bw (mkbv n (k mod 2 ^ n)) - 1 + (isz O - isz A))
     else mkbv n (k mod 2 ^ n)) = mkbv (isz O + frsz A) (k mod 2 ^ (isz O + frsz A))).
  { destruct (Z.ltb_spec 0 (isz O - isz A)).
    - rewrite ext_word by (auto; lia). unfold n. replace (isz A + frsz A + (isz O - isz A)) with (isz O + frsz A) by lia. reflexivity.
    - destruct (Z.ltb_spec (isz O - isz A) 0).
      + cbn [bw]. replace (n - 1 + (isz O - isz A)) with (isz O + frsz A - 1) by (unfold n; lia).
        apply slice_low_word. unfold n; lia.
      + unfold n. replace (isz A) with (isz O) by lia. reflexivity. }
  rewrite M. cbn [bw].
  assert (X : (if 0 <? frsz O - frsz A then rzext (mkbv (isz O + frsz A) (k mod 2 ^ (isz O + frsz A))) (frsz O - frsz A)
     else if frsz O - frsz A <? 0 then slice (mkbv (isz O + frsz A) (k mod 2 ^ (isz O + frsz A))) (- (frsz O - frsz A)) (isz O + frsz A - 1)
     else mkbv (isz O + frsz A) (k mod 2 ^ (isz O + frsz A)))
     = mkbv (isz O + frsz O) (Qfloor (inject_Z k * p2 (- frsz A) * p2 (frsz O)) mod 2 ^ (isz O + frsz O))).
  { rewrite <- (lsb_step (isz O + frsz A) k (frsz A) O) by (auto; lia).
    destruct (Z.ltb_spec 0 (frsz O - frsz A)).
    - rewrite (proj2 (Z.leb_le 0 (frsz O - frsz A))) by lia. reflexivity.
    - destruct (Z.ltb_spec (frsz O - frsz A) 0).
      + rewrite (proj2 (Z.leb_gt 0 (frsz O - frsz A))) by lia. reflexivity.
      + rewrite (proj2 (Z.leb_le 0 (frsz O - frsz A))) by lia. unfold rzext.
        rewrite (proj2 (Z.eqb_eq (frsz O - frsz A) 0)) by lia. reflexivity. }
  rewrite X. split; [reflexivity|]. cbn [bval]. f_equal. apply Qfloor_comp. rewrite Ev. reflexivity.
Qed.

(* conversion keeps the value when the output format can represent it *)
Theorem rtl_conv_exact : forall A O a v k, carries A a v k -> fx_ok O -> 1 <= isz O + frsz A ->
  fx_value O v -> exists k', carries O (rtl_conv A O a) v k'.
Proof.
  intros A O a v k C HO H2 [j [R E]].
  destruct (rtl_conv_correct A O a v k C HO H2) as [W B]. exists j.
  split; auto. split; [split; auto|]. split; auto. rewrite B. f_equal.
  apply Qfloor_int. rewrite E. apply scale_back.
Qed.

Lemma fx_eqb_eq : forall A B, fx_eqb A B = true -> A = B.
Proof.
  intros [i f s] [i' f' s'] H. unfold fx_eqb in H; cbn in H.
  rewrite !andb_true_iff, !Z.eqb_eq in H. destruct H as [[-> ->] H]. apply eqb_prop in H. subst. reflexivity.
Qed.

Lemma convert_num : forall A U a v k, carries A a v k -> fx_ok U -> fx_contains U A ->
  isz A <= isz U -> frsz A <= frsz U -> (sgn A = true -> sgn U = true) ->
  (sgn A = false -> sgn U = true -> isz A <= isz U - 1) ->
  (inject_Z (bv_num (sgn A) (convert_if_needed A U a)) * p2 (- frsz U) == v)%Q.
Proof.
  intros A U a v k C HU HC Hi Hf Hs Hs'.
  assert (VU : fx_value U v). { apply HC. exists k. apply C. }
  assert (CU : exists k', carries U (convert_if_needed A U a) v k').
  { unfold convert_if_needed. destruct (fx_eqb A U) eqn:E.
    - apply fx_eqb_eq in E. subst. eauto.
    - eapply rtl_conv_exact; eauto. destruct C as [OA _]. unfold fx_ok in *. lia. }
  destruct CU as [k' CU]. destruct (carries_word _ _ _ _ CU) as [E [B [N Ev]]].
  rewrite E. rewrite bv_num_word; auto; [symmetry; auto|].
  destruct (sgn A) eqn:SA.
  - rewrite <- (Hs eq_refl). auto.
  - destruct (sgn U) eqn:SU; auto.
    (* v >= 0 since A is unsigned *)
    destruct C as [_ [[R EA] _]]. unfold fx_lo, fx_hi in R. rewrite SA in R.
    assert (0 <= k').
    { apply inj_le_iff. apply (scale_le _ _ (- frsz U)). rewrite <- Ev, EA.
      change (inject_Z 0) with 0%Q. rewrite Qmult_0_l. apply Qmult_le_0_compat.
      - change 0%Q with (inject_Z 0). apply inj_le_iff. lia.
      - apply Qlt_le_weak, p2_pos. }
    unfold zrange in *. pose proof (pow_split (isz U + frsz U) N). lia.
Qed.

(* the generated comparison compares the real values, whatever the formats *)
Theorem rtl_compare_correct : forall rel c L R a b x y kx ky,
  (forall u v, rel u v = c (Z.compare u v)) ->
  carries L a x kx -> carries R b y ky ->
  rtl_compare rel L R a b = c (Qcompare x y).
Proof.
  intros rel c L R a b x y kx ky Hrel CL CR.
  assert (OL : fx_ok L) by apply CL. assert (OR : fx_ok R) by apply CR.
  unfold rtl_compare. set (U := largest_fixed L R).
  destruct (largest_fixed_contains L R OL OR) as [OU [UL UR]]. fold U in OU, UL, UR.
  assert (I : isz L <= isz U /\ isz R <= isz U /\ frsz L <= frsz U /\ frsz R <= frsz U).
  { unfold U, largest_fixed; cbn [isz frsz]. destruct (xorb (sgn L) (sgn R) && _); lia. }
  assert (EL : (inject_Z (bv_num (sgn L) (convert_if_needed L U a)) * p2 (- frsz U) == x)%Q).
  { apply convert_num with kx; auto; try lia.
    - unfold U, largest_fixed; cbn [sgn]. intros ->. reflexivity.
    - unfold U, largest_fixed; cbn [sgn isz]. intros ->. cbn [orb xorb]. intros ->. cbn [andb].
      destruct (Z.leb_spec (isz R) (isz L)); lia. }
  assert (ER : (inject_Z (bv_num (sgn R) (convert_if_needed R U b)) * p2 (- frsz U) == y)%Q).
  { apply convert_num with ky; auto; try lia.
    - unfold U, largest_fixed; cbn [sgn]. intros ->. apply orb_true_r.
    - unfold U, largest_fixed; cbn [sgn isz]. intros ->. rewrite orb_false_r. intros ->. cbn [xorb andb].
      destruct (Z.leb_spec (isz L) (isz R)); lia. }
  set (u := bv_num (sgn L) (convert_if_needed L U a)) in *. set (w := bv_num (sgn R) (convert_if_needed R U b)) in *.
  assert (Q : Qcompare x y = Z.compare u w).
  { rewrite <- (Qcompare_comp _ _ EL _ _ ER).
    destruct (Z.compare_spec u w) as [H|H|H].
    - subst. apply Qeq_alt. rewrite H. reflexivity.
    - apply (proj1 (Qlt_alt _ _)). apply scale_lt. apply inj_lt_iff. auto.
    - apply (proj1 (Qgt_alt _ _)). apply scale_lt. apply inj_lt_iff. auto. }
  rewrite Q. apply Hrel.
Qed.
Theorem rtl_compare_lt : forall L R a b x y kx ky, carries L a x kx -> carries R b y ky ->
  (rtl_compare Z.ltb L R a b = true <-> (x < y)%Q) /\ (rtl_compare Z.eqb L R a b = true <-> (x == y)%Q).
Proof.
  intros L R a b x y kx ky CL CR.
  rewrite (rtl_compare_correct Z.ltb (fun c => match c with Lt => true | _ => false end) L R a b x y kx ky) by auto.
  rewrite (rtl_compare_correct Z.eqb (fun c => match c with Eq => true | _ => false end) L R a b x y kx ky).
  - split.
    + rewrite Qlt_alt. destruct (x ?= y)%Q; split; auto; discriminate.
    + rewrite Qeq_alt. destruct (x ?= y)%Q; split; auto; discriminate.
  - intros. rewrite Z.eqb_compare. reflexivity.
  - auto.
  - auto.
Qed.

(* negation gives the opposite when it is representable in the output *)
Theorem rtl_neg_exact : forall A O a v k, carries A a v k -> fx_ok O -> 1 <= isz O + frsz A ->
  fx_value O v -> fx_value O (- v)%Q -> exists k', carries O (rtl_neg A O a) (- v)%Q k'.
Proof.
  intros A O a v k C HO H2 V [j [R E]].
  destruct (rtl_conv_exact A O a v k C HO H2 V) as [k' [_ [[R' E'] [W B]]]].
  exists j. unfold rtl_neg. split; auto. split; [split; auto|]. cbn [bw bval]. split; auto.
  rewrite W, B. unfold fx_ok in HO. pose proof (pow2_pos (isz O + frsz O) ltac:(lia)) as P.
  assert (j = - k').
  { apply inject_Z_injective. rewrite inject_Z_opp.
    rewrite <- (scale_back j (frsz O)), <- (scale_back k' (frsz O)), <- E, <- E'. ring. }
  subst j.
  replace (2 ^ (isz O + frsz O) - 1 - k' mod 2 ^ (isz O + frsz O) + 1)
    with (- (k' mod 2 ^ (isz O + frsz O)) + 1 * 2 ^ (isz O + frsz O)) by lia.
  rewrite Z_mod_plus_full.
  replace (- (k' mod 2 ^ (isz O + frsz O))) with (0 - k' mod 2 ^ (isz O + frsz O)) by lia.
  rewrite Zminus_mod_idemp_r. f_equal.
Qed.

(* shifts by a constant between 0 and the width (excluded) *)
Theorem rtl_shift_cst_correct : forall a s, 0 <= s < bw a -> 0 <= bval a < 2 ^ bw a ->
  bw (rtl_shift_cst ShiftRightLogic a s) = bw a /\
  bval (rtl_shift_cst ShiftRightLogic a s) = bval a / 2 ^ s /\
  bw (rtl_shift_cst ShiftRightArith a s) = bw a /\
  bv_num true (rtl_shift_cst ShiftRightArith a s) = bv_num true a / 2 ^ s /\
  bw (rtl_shift_cst ShiftLeft a s) = bw a /\
  bval (rtl_shift_cst ShiftLeft a s) = (bval a * 2 ^ s) mod 2 ^ bw a.
Proof.
  intros [n v] s Hs Hv. cbn [bw bval] in *. unfold rtl_shift_cst. cbn [bw bval].
  destruct (Z.eqb_spec s 0).
  { subst. cbn [bw bval]. rewrite Z.mul_1_r, !Z.div_1_r, Z.mod_small by lia. repeat split; reflexivity. }
  pose proof (pow2_pos s ltac:(lia)) as Ps. pose proof (pow2_pos n ltac:(lia)) as Pn.
  assert (Ev : v = v mod 2 ^ n) by (rewrite Z.mod_small; auto).
  assert (S1 : slice (mkbv n v) s (n - 1) = mkbv (n - s) ((v / 2 ^ s) mod 2 ^ (n - s))).
  { rewrite Ev at 1. apply slice_high_word. lia. }
  assert (D : 0 <= v / 2 ^ s < 2 ^ (n - s)).
  { split; [apply Z.div_pos; lia|]. apply Z.div_lt_upper_bound; [lia|]. rewrite <- Z.pow_add_r by lia.
    replace (s + (n - s)) with n by lia. lia. }
  rewrite (Z.mod_small _ _ D) in S1.
  assert (S2 : slice (mkbv n v) 0 (n - 1 - s) = mkbv (n - s) (v mod 2 ^ (n - s))).
  { rewrite Ev at 1. replace (n - 1 - s) with (n - s - 1) by lia. apply slice_low_word. lia. }
  rewrite S1, S2. cbn [bw bval].
  split; [lia|]. split; [lia|]. split; [lia|]. split; [|split; [lia|]].
  - (* arithmetic *)
    assert (K : exists k, v = k mod 2 ^ n /\ zrange true n k).
    { exists (bv_num true (mkbv n v)). unfold bv_num; cbn [andb bw bval].
      pose proof (pow_split n ltac:(lia)).
      assert (T : Z.testbit v (n - 1) = (2 ^ (n - 1) <=? v)).
      { rewrite Z.testbit_eqb by lia. destruct (Z.leb_spec (2 ^ (n - 1)) v).
        - replace (v / 2 ^ (n - 1)) with 1; [reflexivity|]. apply Z.div_unique with (v - 2 ^ (n - 1)); lia.
        - rewrite Z.div_small by lia. reflexivity. }
      rewrite T. destruct (Z.leb_spec (2 ^ (n - 1)) v); unfold zrange.
      - split; [|lia]. replace (v - 2 ^ n) with (v + (-1) * 2 ^ n) by lia. rewrite Z_mod_plus_full. auto.
      - split; [auto|lia]. }
    destruct K as [k [Kv Kr]].
    rewrite Kv. rewrite bv_num_word by (auto; lia). rewrite word_msb by (auto; lia).
    rewrite mod_div_pow by lia.
    assert (Kq : zrange true (n - s) (k / 2 ^ s)).
    { unfold zrange in *. replace (n - s - 1) with (n - 1 - s) by lia.
      assert (X : 2 ^ (n - 1) = 2 ^ s * 2 ^ (n - 1 - s)) by (rewrite <- Z.pow_add_r by lia; f_equal; lia).
      split; [apply Z.div_le_lower_bound; lia|apply Z.div_lt_upper_bound; lia]. }
    assert (Es : (k <? 0) = (k / 2 ^ s <? 0)).
    { destruct (Z.ltb_spec k 0), (Z.ltb_spec (k / 2 ^ s) 0); auto; exfalso.
      - assert (k / 2 ^ s < 0) by (apply Z.div_lt_upper_bound; lia). lia.
      - assert (0 <= k / 2 ^ s) by (apply Z.div_pos; lia). lia. }
    rewrite Es.
    pose proof (ext_word true (n - s) s (k / 2 ^ s) ltac:(lia) ltac:(lia) Kq) as X.
    unfold sext in X. destruct (Z.eqb_spec s 0); [lia|]. cbn [bw bval] in X.
    rewrite word_msb in X by (auto; lia).
    replace (s + (n - s)) with (n - s + s) by lia. rewrite X. apply bv_num_word; [lia|].
    apply zrange_wider with (n - s); auto; lia.
  - rewrite Z.add_0_r. rewrite <- Z.mul_mod_distr_r by (try apply Z.pow_nonzero; lia).
    rewrite <- Z.pow_add_r by lia. replace (n - s + s) with n by lia. reflexivity.
Qed.

(* conversion between plain vectors is zero extension / truncation *)
Theorem rtl_slv_conv_correct : forall a n, 0 <= bval a < 2 ^ bw a -> 1 <= n -> 1 <= bw a ->
  bw (rtl_slv_conv a n) = n /\ bval (rtl_slv_conv a n) = bval a mod 2 ^ n.
Proof.
  intros [w v] n H Hn Hw. cbn [bw bval] in *. unfold rtl_slv_conv; cbn [bw bval].
  destruct (Z.eqb_spec w n).
  { subst. cbn. rewrite Z.mod_small by lia. auto. }
  destruct (Z.ltb_spec n w).
  - assert (E : v = v mod 2 ^ w) by (rewrite Z.mod_small; auto).
    rewrite E at 1 2. rewrite slice_low_word by lia. cbn [bw bval]. auto.
  - cbn [bw bval]. split; auto. symmetry. apply Z.mod_small.
    assert (2 ^ w <= 2 ^ n) by (apply Z.pow_le_mono_r; lia). lia.
Qed.

Example rtl_conv_example :
  rtl_conv (Build_fxfmt 4 2 true) (Build_fxfmt 6 1 true) (mkbv 6 61) = mkbv 7 126 /\
  rtl_compare Z.ltb (Build_fxfmt 4 0 true) (Build_fxfmt 4 1 false) (mkbv 4 15) (mkbv 5 31) = true /\
  rtl_shift_cst ShiftRightArith (mkbv 8 200) 3 = mkbv 8 249.
Proof. repeat split; vm_compute; reflexivity. Qed.

(* ---- C46: VHDL constants ---- *)

(* width and value spelled by a literal *)
Definition lit_value (b : Z) (l : list Z) : Z := fold_left (fun acc d => acc * b + d) l 0.
Definition lit_ok (b : Z) (l : list Z) : Prop := Forall (fun d => 0 <= d < b) l.
Definition lit_denotes (t : vlit) (n v : Z) : Prop :=
  match t with
  | LChar d => n = 1 /\ 0 <= d < 2 /\ v = d
  | LHex l => n = 4 * Z.of_nat (length l) /\ lit_ok 16 l /\ v = lit_value 16 l
  | LBin l => n = Z.of_nat (length l) /\ lit_ok 2 l /\ v = lit_value 2 l
  end.

Lemma lit_acc : forall b l acc, fold_left (fun a d => a * b + d) l acc
  = acc * b ^ Z.of_nat (length l) + lit_value b l.
Proof.
  intros b l. unfold lit_value. induction l as [|d l IH]; intros acc.
  - cbn. lia.
  - cbn [fold_left length]. rewrite IH, (IH (0 * b + d)).
    rewrite Nat2Z.inj_succ, Z.pow_succ_r by lia. ring.
Qed.

Lemma digits_spec : forall b fuel v acc, 2 <= b -> 0 <= v < 2 ^ Z.of_nat fuel -> (1 <= fuel)%nat ->
  lit_ok b acc ->
  lit_ok b (digits b fuel v acc) /\
  lit_value b (digits b fuel v acc) = v * b ^ Z.of_nat (length acc) + lit_value b acc /\
  (forall m, 1 <= m -> v < b ^ m -> Z.of_nat (length (digits b fuel v acc)) <= Z.of_nat (length acc) + m) /\
  (length acc < length (digits b fuel v acc))%nat.
Proof.
  intros b. induction fuel as [|n IH]; intros v acc Hb Hv Hf Ha; [lia|]. cbn [digits].
  destruct (Z.ltb_spec v b).
  - split; [constructor; auto; lia|]. split.
    + unfold lit_value at 1. cbn [fold_left]. rewrite lit_acc. ring.
    + cbn [length]. split; [intros; lia|lia].
  - assert (Hn : (1 <= n)%nat).
    { destruct n; [|lia]. change (2 ^ Z.of_nat 1) with 2 in Hv. lia. }
    assert (Hq : 0 <= v / b < 2 ^ Z.of_nat n).
    { rewrite Nat2Z.inj_succ, Z.pow_succ_r in Hv by lia. split; [apply Z.div_pos; lia|].
      apply Z.div_lt_upper_bound; [lia|]. assert (0 < 2 ^ Z.of_nat n) by (apply pow2_pos; lia). nia. }
    pose proof (Z.mod_pos_bound v b ltac:(lia)) as M. pose proof (Z.div_mod v b ltac:(lia)) as D.
    destruct (IH (v / b) (v mod b :: acc) Hb Hq Hn) as [I1 [I2 [I3 I4]]]; [constructor; auto|].
    split; auto. cbn [length] in I2, I3, I4. split; [|split; [|lia]].
    + rewrite I2. rewrite Nat2Z.inj_succ, Z.pow_succ_r by lia.
      unfold lit_value at 1. cbn [fold_left]. rewrite lit_acc. nia.
    + intros m Hm Hlt.
      assert (2 <= m).
      { destruct (Z.eq_dec m 1); [|lia]. subst. rewrite Z.pow_1_r in Hlt. lia. }
      specialize (I3 (m - 1) ltac:(lia)).
      assert (v / b < b ^ (m - 1)).
      { apply Z.div_lt_upper_bound; [lia|]. rewrite <- Z.pow_succ_r by lia. replace (Z.succ (m - 1)) with m by lia. auto. }
      specialize (I3 H1). lia.
Qed.

Lemma py_digits_spec : forall b v m, 2 <= b -> 0 <= v -> 1 <= m -> v < b ^ m ->
  lit_ok b (py_digits b v) /\ lit_value b (py_digits b v) = v /\
  1 <= Z.of_nat (length (py_digits b v)) <= m.
Proof.
  intros b v m Hb Hv Hm Hl. unfold py_digits.
  assert (F : 0 <= v < 2 ^ Z.of_nat (S (Z.to_nat (Z.log2 v)))).
  { split; auto. pose proof (Z.log2_nonneg v). rewrite Nat2Z.inj_succ, Z2Nat.id by lia.
    destruct (Z.eq_dec v 0); [subst; reflexivity|]. apply Z.log2_spec. lia. }
  destruct (digits_spec b _ v [] Hb F ltac:(lia)) as [A [B [C D]]]; [constructor|].
  split; auto. split; [rewrite B; cbn; lia|]. specialize (C m Hm Hl). cbn [length] in *. lia.
Qed.

Lemma zfill_spec : forall b n l, 2 <= b -> Z.of_nat (length l) <= n -> lit_ok b l ->
  lit_ok b (zfill n l) /\ lit_value b (zfill n l) = lit_value b l /\ Z.of_nat (length (zfill n l)) = n.
Proof.
  intros b n l Hb Hl Ho. unfold zfill. split; [|split].
  - apply Forall_app. split; auto. apply Forall_forall. intros x Hx. apply repeat_spec in Hx. lia.
  - unfold lit_value. rewrite fold_left_app. f_equal.
    induction (Z.to_nat (n - Z.of_nat (length l))) as [|k IH]; cbn [repeat fold_left]; auto.
  - rewrite app_length, repeat_length. lia.
Qed.

(* the literal generated for an integer on n bits has n bits and denotes the
   integer modulo 2^n; one is generated for every positive width (for a
   std_logic, width one) *)
Theorem vhdl_cst_denotes : forall v n b, 1 <= n -> (b = true -> n = 1) ->
  exists t, vhdl_cst v n b = Some t /\ lit_denotes t n (v mod 2 ^ n) /\ (b = true <-> exists d, t = LChar d).
Proof.
  intros v n b Hn Hb. unfold vhdl_cst.
  replace (2 ^ n - 1) with (Z.ones n) by (rewrite Z.ones_equiv; lia). rewrite Z.land_ones by lia.
  pose proof (Z.mod_pos_bound v (2 ^ n) (pow2_pos n ltac:(lia))) as M. set (w := v mod 2 ^ n) in *.
  rewrite (proj2 (Z.leb_gt n 0)) by lia. destruct b.
  - specialize (Hb eq_refl). subst n. cbn [Z.eqb Pos.eqb].
    destruct (py_digits_spec 2 w 1 ltac:(lia) ltac:(lia) ltac:(lia) ltac:(lia)) as [A [B C]].
    destruct (py_digits 2 w) as [|d [|d' l]] eqn:E; cbn [length] in C; try lia.
    exists (LChar d). split; [reflexivity|]. split.
    + cbn in B. inversion A as [|? ? A1 _]; subst. cbn [lit_denotes]. lia.
    + split; eauto.
  - destruct (Z.eqb_spec (n mod 4) 0) as [E|E].
    + pose proof (Z.div_mod n 4 ltac:(lia)) as D.
      assert (P : 2 ^ n = 16 ^ (n / 4)).
      { change 16 with (2 ^ 4). rewrite <- Z.pow_mul_r by lia. f_equal. lia. }
      destruct (py_digits_spec 16 w (n / 4) ltac:(lia) ltac:(lia) ltac:(lia) ltac:(lia)) as [A [B C]].
      destruct (zfill_spec 16 (n / 4) (py_digits 16 w) ltac:(lia) ltac:(lia) A) as [A' [B' C']].
      eexists. split; [reflexivity|]. split.
      * cbn [lit_denotes]. split; [lia|]. split; auto. rewrite B'. auto.
      * split; [discriminate|]. intros [d X]; discriminate.
    + destruct (py_digits_spec 2 w n ltac:(lia) ltac:(lia) ltac:(lia) ltac:(lia)) as [A [B C]].
      destruct (zfill_spec 2 n (py_digits 2 w) ltac:(lia) ltac:(lia) A) as [A' [B' C']].
      eexists. split; [reflexivity|]. split.
      * cbn [lit_denotes]. split; [lia|]. split; auto. rewrite B'. auto.
      * split; [discriminate|]. intros [d X]; discriminate.
Qed.

(* a fixed-point constant is written as the two's complement word of its
   scaled integer *)
Theorem vhdl_fixed_cst_denotes : forall F v k, fx_ok F -> fx_is F v k ->
  exists t, vhdl_fixed_cst F v false = Some t /\
    lit_denotes t (isz F + frsz F) (k mod 2 ^ (isz F + frsz F)).
Proof.
  intros F v k H [R E]. unfold vhdl_fixed_cst, fx_bits.
  rewrite (qtrunc_int _ k) by (rewrite E; apply scale_back).
  unfold fx_ok in H. destruct (vhdl_cst_denotes k (isz F + frsz F) false H ltac:(discriminate)) as [t [A [B _]]].
  eauto.
Qed.

(* get_2scomplement_neg is the opposite and fits; it rejects two representable
   magnitudes *)
Theorem get_2scomplement_neg_correct : forall v n w, 1 <= n -> get_2scomplement_neg v n = Some w ->
  w = - Z.abs v /\ - 2 ^ (n - 1) <= w <= 0.
Proof.
  intros v n w Hn H. unfold get_2scomplement_neg in H. destruct (Z.ltb_spec (Z.abs v) (2 ^ (n - 1) - 1)); [|discriminate].
  injection H as <-. unfold Z.lnot. lia.
Qed.
Theorem get_2scomplement_neg_domain_refuted : forall n, 2 <= n ->
  get_2scomplement_neg (2 ^ (n - 1) - 1) n = None.
Proof.
  intros n Hn. unfold get_2scomplement_neg.
  assert (2 ^ 1 <= 2 ^ (n - 1)) by (apply Z.pow_le_mono_r; lia). rewrite Z.abs_eq by lia.
  rewrite Z.ltb_irrefl. reflexivity.
Qed.

Example vhdl_cst_example :
  vhdl_cst (-3) 8 false = Some (LHex [15; 13]) /\ vhdl_cst 5 6 false = Some (LBin [0; 0; 0; 1; 0; 1]) /\
  vhdl_cst 1 1 true = Some (LChar 1) /\ vhdl_cst 300 8 false = Some (LHex [2; 12]) /\
  vhdl_fixed_cst (Build_fxfmt 3 5 true) (-1 # 2) false = Some (LHex [15; 0]).
Proof. repeat split; vm_compute; reflexivity. Qed.

(* ---- C19: slices ---- *)

(* bits selected by a node: an integer (constants: code of the value) *)
Fixpoint reval (env : Z -> Z) (n : rnode) : Z :=
  match n with
  | RSig i => env i
  | RCst v f => v * 2 ^ f
  | RSlice m lo hi => (reval env m / 2 ^ lo) mod 2 ^ (hi - lo + 1)
  | RBit m i => Z.b2z (Z.testbit (reval env m) i)
  end.

(* index i is inside the node n *)
Definition inside (n : rnode) (i : Z) : Prop :=
  match n with
  | RSlice _ lo hi => i <= hi - lo
  | RBit _ _ => i <= 0
  | _ => True
  end.
Fixpoint rwf (n : rnode) : Prop :=
  match n with
  | RSig _ => True
  | RCst _ f => 0 <= f
  | RSlice m lo hi => rwf m /\ 0 <= lo <= hi /\ inside m hi
  | RBit m i => rwf m /\ 0 <= i /\ inside m i
  end.

Lemma simplify_inv : forall fuel n n', rwf n -> simplify_rtl fuel n = Some n' ->
  rwf n' /\ (forall env, reval env n' = reval env n) /\ (forall i, 0 <= i -> inside n i -> inside n' i) /\
  (rdepth n' <= rdepth n)%nat.
Proof.
  induction fuel as [|k IH]; intros n n' W H; [discriminate|]. cbn [simplify_rtl] in H.
  destruct n as [id|v f|m lo hi|m i].
  - injection H as <-. auto.
  - injection H as <-. auto.
  - cbn [rwf] in W. destruct W as [Wm [Wb Wi]].
    destruct (simplify_rtl k m) as [m'|] eqn:E; [|discriminate].
    destruct (IH _ _ Wm E) as [A [B [C D]]].
    destruct m' as [id|v f|p plo phi|p j]; try (injection H as <-; cbn [rwf]; auto; fail).
    destruct (simplify_rtl k p) as [p'|] eqn:E'; [|discriminate]. injection H as <-.
    cbn [rwf] in A. destruct A as [Wp [Wpb Wpi]].
    destruct (IH _ _ Wp E') as [A' [B' [C' D']]].
    pose proof (C hi ltac:(lia) Wi) as Ci. cbn [inside] in Ci.
    assert (Hin : inside p (plo + hi)).
    { destruct p; cbn [inside] in *; auto; lia. }
    split; [|split; [|split]].
    + cbn [rwf]. split; auto. split; [lia|]. apply C'; auto. lia.
    + intros env. cbn [reval]. rewrite B'. rewrite <- (B env). cbn [reval].
      set (x := reval env p).
      rewrite mod_div_pow by lia.
      rewrite Z.div_div by (try apply Z.pow_nonzero; try apply Z.pow_pos_nonneg; lia).
      rewrite <- Z.pow_add_r by lia.
      replace (plo + hi - (plo + lo) + 1) with (hi - lo + 1) by lia.
      replace (phi - plo + 1 - lo) with (hi - lo + 1 + (phi - plo - hi)) by lia.
      rewrite (Z.pow_add_r 2 (hi - lo + 1)) by lia.
      rewrite Z.rem_mul_r by (try apply Z.pow_nonzero; try apply Z.pow_pos_nonneg; lia).
      rewrite (Z.mul_comm (2 ^ (hi - lo + 1))), Z_mod_plus_full, Z.mod_mod; auto.
      apply Z.pow_nonzero; lia.
    + intros j Hj. cbn [inside]. lia.
    + cbn [rdepth] in *. lia.
  - cbn [rwf] in W. destruct W as [Wm [Wb Wi]].
    destruct (simplify_rtl k m) as [m'|] eqn:E; [|discriminate].
    destruct (IH _ _ Wm E) as [A [B [C D]]].
    destruct m' as [id|v f|p plo phi|p j]; try (injection H as <-; cbn [rwf]; auto; fail).
    + cbn [rwf] in A. destruct (Z.ltb_spec (i - f) 0); [discriminate|]. injection H as <-.
      split; [cbn; lia|]. split; [|split; [intros; exact I|cbn [rdepth] in *; lia]].
      intros env. cbn [reval]. rewrite <- (B env). cbn [reval].
      rewrite <- Z.shiftl_mul_pow2 with (a := v) by lia.
      rewrite Z.shiftl_spec by lia.
      change 1 with (Z.ones 1). rewrite Z.land_ones by lia.
      rewrite Z.pow_0_r, Z.mul_1_r. rewrite Z.shiftr_div_pow2 by lia.
      rewrite Z.testbit_spec' by lia. reflexivity.
    + injection H as <-. cbn [rwf] in A. destruct A as [Wp [Wpb Wpi]].
      pose proof (C i ltac:(lia) Wi) as Ci. cbn [inside] in Ci.
      split; [|split; [|split]].
      * cbn [rwf]. split; auto. split; [lia|]. destruct p; cbn [inside] in *; auto; lia.
      * intros env. cbn [reval]. rewrite <- (B env). cbn [reval]. f_equal.
        rewrite Z.mod_pow2_bits_low by lia.
        rewrite Z.div_pow2_bits by lia. f_equal. lia.
      * intros j Hj. cbn [inside]. lia.
      * cbn [rdepth] in *. lia.
Qed.

(* whatever the nesting, the simplified node selects the same bits *)
Theorem rtl_simplify_correct : forall n n' env, rwf n -> rtl_simplify n = Some n' ->
  reval env n' = reval env n.
Proof. intros n n' env W H. eapply simplify_inv; eauto. Qed.

(* simplification succeeds on every node without constants *)
Fixpoint no_cst (n : rnode) : Prop :=
  match n with RSig _ => True | RCst _ _ => False | RSlice m _ _ | RBit m _ => no_cst m end.

Lemma simplify_total : forall fuel n, rwf n -> no_cst n -> (rdepth n < fuel)%nat ->
  exists n', simplify_rtl fuel n = Some n' /\ no_cst n'.
Proof.
  induction fuel as [|k IH]; intros n W N F; [lia|]. cbn [simplify_rtl].
  destruct n as [id|v f|m lo hi|m i]; cbn [no_cst rdepth rwf] in *.
  - eexists; split; [reflexivity|exact I].
  - contradiction.
  - destruct W as [Wm [Wb Wi]].
    destruct (IH m Wm N ltac:(lia)) as [m' [E N']]. rewrite E.
    destruct (simplify_inv k m m' Wm E) as [A [B [C D]]].
    destruct m' as [id|v f|p plo phi|p j]; try (eexists; split; [reflexivity|auto]; fail).
    cbn [no_cst rwf rdepth] in *. destruct A as [Wp _].
    destruct (IH p Wp N' ltac:(lia)) as [p' [E' N'']]. rewrite E'. eexists; split; [reflexivity|]. exact N''.
  - destruct W as [Wm [Wb Wi]].
    destruct (IH m Wm N ltac:(lia)) as [m' [E N']]. rewrite E.
    destruct m' as [id|v f|p plo phi|p j]; cbn [no_cst] in *; try contradiction; (eexists; split; [reflexivity|auto]).
Qed.

Theorem rtl_simplify_total_partial : forall n, rwf n -> no_cst n ->
  exists n', rtl_simplify n = Some n'.
Proof.
  intros n W N. destruct (simplify_total (S (rdepth n)) n W N ltac:(lia)) as [n' [E _]]. eauto.
Qed.

(* selecting a fraction bit of a fixed-point constant fails (negative shift
   count): bit 0 of 3 in FU4.2 *)
Theorem rtl_simplify_cst_refuted : rtl_simplify (RBit (RCst 3 2) 0) = None /\ rwf (RBit (RCst 3 2) 0).
Proof. split; [reflexivity|cbn; lia]. Qed.

Example rtl_simplify_example :
  rtl_simplify (RBit (RSlice (RSlice (RSlice (RSig 0) 3 20) 2 12) 1 7) 4) = Some (RBit (RSig 0) 10) /\
  rtl_simplify (RBit (RCst 5 1) 3) = Some (RCst 1 0) /\
  rwf (RBit (RSlice (RSlice (RSlice (RSig 0) 3 20) 2 12) 1 7) 4).
Proof. repeat split; try reflexivity; cbn; lia. Qed.

Print Assumptions rtl_add_correct.
Print Assumptions rtl_sub_correct.
Print Assumptions rtl_mul_correct.
Print Assumptions rtl_mul_sized_exact.
Print Assumptions rtl_add_wide_refuted.
Print Assumptions rtl_conv_correct.
Print Assumptions rtl_conv_exact.
Print Assumptions rtl_compare_correct.
Print Assumptions rtl_compare_lt.
Print Assumptions rtl_neg_exact.
Print Assumptions rtl_shift_cst_correct.
Print Assumptions rtl_slv_conv_correct.
Print Assumptions vhdl_cst_denotes.
Print Assumptions vhdl_fixed_cst_denotes.
Print Assumptions rtl_simplify_correct.
Print Assumptions rtl_simplify_total_partial.
Print Assumptions rtl_simplify_cst_refuted.
Print Assumptions get_2scomplement_neg_correct.
Print Assumptions get_2scomplement_neg_domain_refuted.
