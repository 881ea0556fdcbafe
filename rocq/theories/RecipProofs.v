(* The iterations of the reciprocal unit as integer arithmetic, and their errors. *)
From Coq Require Import ZArith QArith Qround Lia Bool.
From Verif Require Import QUtil FixedModel FixedSpec FixedProps FpFormatModel AdderModel RtlFixedModel RtlFixedProps RecipModel.
Open Scope Z_scope.

(* the vector spells the scaled integer k of format F *)
Definition holds (F : fxfmt) (a : bv) (k : Z) : Prop :=
  fx_ok F /\ fx_lo F <= k <= fx_hi F /\ a = mkbv (isz F + frsz F) (k mod 2 ^ (isz F + frsz F)).

Lemma holds_carries : forall F a k, holds F a k -> carries F a (inject_Z k * p2 (- frsz F))%Q k.
Proof.
  intros F a k [O [R E]]. subst a. unfold carries, fx_is. cbn [bw bval].
  split; [auto|]. split; [|split; reflexivity]. split; [auto|]. reflexivity.
Qed.

Definition rescale (k f g : Z) : Z := if f <=? g then k * 2 ^ (g - f) else k / 2 ^ (f - g).

Lemma floor_holds : forall O a v k f, fx_ok O -> floor_word O a v -> (v == inject_Z k * p2 (- f))%Q ->
  fx_lo O <= rescale k f (frsz O) <= fx_hi O -> holds O a (rescale k f (frsz O)).
Proof.
  intros O a v k f HO [W B] E R. split; [auto|]. split; [auto|].
  rewrite (bv_eta a), W, B. f_equal. f_equal. unfold rescale. rewrite <- (floor_rescale k f (frsz O)).
  apply Qfloor_comp. rewrite E. reflexivity.
Qed.

Lemma mul_holds : forall L R O a b kx ky, holds L a kx -> holds R b ky -> fx_ok O ->
  sgn L = true -> sgn R = true -> sgn O = true ->
  1 <= isz O + (frsz L + frsz R) ->
  - 2 ^ (isz L + isz R + (frsz L + frsz R) - 1) <= kx * ky < 2 ^ (isz L + isz R + (frsz L + frsz R) - 1) ->
  fx_lo O <= rescale (kx * ky) (frsz L + frsz R) (frsz O) <= fx_hi O ->
  holds O (rtl_mul L R O a b) (rescale (kx * ky) (frsz L + frsz R) (frsz O)).
Proof.
  intros L R O a b kx ky HL HR HO SL SR SO H1 H2 H3.
  assert (E : (inject_Z kx * p2 (- frsz L) * (inject_Z ky * p2 (- frsz R)) == inject_Z (kx * ky) * p2 (- (frsz L + frsz R)))%Q).
  { replace (- (frsz L + frsz R)) with (- frsz L + - frsz R) by lia. rewrite p2_plus, inject_Z_mult. ring. }
  eapply floor_holds; [auto| |exact E|auto].
  apply rtl_mul_correct with kx ky; auto using holds_carries.
  right. exists (kx * ky). split; [|exact E].
  unfold fx_lo, fx_hi, mul_format; cbn [isz frsz sgn]. rewrite SO, SL, SR; cbn [xorb].
  rewrite !Z.add_0_r. lia.
Qed.

Lemma addsub_num : forall kx f h, f <= h ->
  (inject_Z (kx * 2 ^ (h - f)) * p2 (- h) == inject_Z kx * p2 (- f))%Q.
Proof.
  intros. rewrite inject_Z_mult, <- (p2_Z (h - f)) by lia.
  replace (- f) with ((h - f) + - h) by lia. rewrite p2_plus. ring.
Qed.

Lemma inject_Z_sub : forall a b, (inject_Z (a - b) == inject_Z a - inject_Z b)%Q.
Proof. intros. unfold Z.sub. rewrite inject_Z_plus, inject_Z_opp. reflexivity. Qed.

Lemma sub_holds : forall L R O a b kx ky, holds L a kx -> holds R b ky -> fx_ok O ->
  1 <= isz O + Z.max (frsz L) (frsz R) -> isz O <= Z.max (isz L) (isz R) + 1 ->
  let h := Z.max (frsz L) (frsz R) in
  let k := kx * 2 ^ (h - frsz L) - ky * 2 ^ (h - frsz R) in
  fx_lo O <= rescale k h (frsz O) <= fx_hi O ->
  holds O (rtl_sub L R O a b) (rescale k h (frsz O)).
Proof.
  intros L R O a b kx ky HL HR HO H1 H2 h k H3.
  eapply floor_holds; [auto| |reflexivity|auto].
  pose proof (rtl_sub_correct L R O a b _ _ kx ky (holds_carries _ _ _ HL) (holds_carries _ _ _ HR) HO H1 (or_introl H2)) as [W B].
  split; [exact W|]. rewrite B. f_equal. apply Qfloor_comp.
  rewrite <- (addsub_num kx (frsz L) h), <- (addsub_num ky (frsz R) h) by (unfold h; lia).
  unfold k. rewrite inject_Z_sub. ring.
Qed.

Lemma add_holds : forall L R O a b kx ky, holds L a kx -> holds R b ky -> fx_ok O ->
  1 <= isz O + Z.max (frsz L) (frsz R) -> isz O <= Z.max (isz L) (isz R) + 1 ->
  let h := Z.max (frsz L) (frsz R) in
  let k := kx * 2 ^ (h - frsz L) + ky * 2 ^ (h - frsz R) in
  fx_lo O <= rescale k h (frsz O) <= fx_hi O ->
  holds O (rtl_add L R O a b) (rescale k h (frsz O)).
Proof.
  intros L R O a b kx ky HL HR HO H1 H2 h k H3.
  eapply floor_holds; [auto| |reflexivity|auto].
  pose proof (rtl_add_correct L R O a b _ _ kx ky (holds_carries _ _ _ HL) (holds_carries _ _ _ HR) HO H1 (or_introl H2)) as [W B].
  split; [exact W|]. rewrite B. f_equal. apply Qfloor_comp.
  rewrite <- (addsub_num kx (frsz L) h), <- (addsub_num ky (frsz R) h) by (unfold h; lia).
  unfold k. rewrite inject_Z_plus. ring.
Qed.

Lemma fixed_cst_one : forall f, 0 <= f -> holds (sf 2 f) (fixed_cst (sf 2 f) 1) (2 ^ f).
Proof.
  intros f H. pose proof (Z.pow_pos_nonneg 2 f ltac:(lia) H). split; [unfold fx_ok, sf; cbn [isz frsz]; lia|]. split.
  - unfold fx_lo, fx_hi, sf; cbn [isz frsz sgn]. replace (2 + f - 1) with (f + 1) by lia.
    rewrite Z.pow_add_r by lia. change (2 ^ 1) with 2. lia.
  - unfold fixed_cst, fx_bits, sf; cbn [isz frsz]. f_equal.
    assert (E : (1 * p2 f == inject_Z (2 ^ f))%Q) by (rewrite p2_Z by lia; ring).
    rewrite (qtrunc_int _ _ E). rewrite FpFormatProofs.land_pow2 by lia. reflexivity.
Qed.

Lemma nr_holds : forall X Y M E T N x y kx ky,
  holds X x kx -> holds Y y ky -> holds M (fixed_cst M 1) (2 ^ frsz M) -> fx_ok E -> fx_ok T -> fx_ok N ->
  sgn X = true -> sgn Y = true -> sgn M = true -> sgn E = true -> sgn T = true ->
  1 <= isz M + (frsz X + frsz Y) -> isz M <= isz X + isz Y ->
  1 <= isz E + frsz M -> isz E <= isz M + 1 ->
  1 <= isz T + (frsz E + frsz Y) ->
  1 <= isz N + Z.max (frsz Y) (frsz T) -> isz N <= Z.max (isz Y) (isz T) + 1 ->
  - 2 ^ (isz X + isz Y + (frsz X + frsz Y) - 1) <= kx * ky < 2 ^ (isz X + isz Y + (frsz X + frsz Y) - 1) ->
  let km := rescale (kx * ky) (frsz X + frsz Y) (frsz M) in
  fx_lo M <= km <= fx_hi M ->
  let ke := rescale (2 ^ frsz M - km) (frsz M) (frsz E) in
  fx_lo E <= ke <= fx_hi E ->
  - 2 ^ (isz E + isz Y + (frsz E + frsz Y) - 1) <= ke * ky < 2 ^ (isz E + isz Y + (frsz E + frsz Y) - 1) ->
  let kt := rescale (ke * ky) (frsz E + frsz Y) (frsz T) in
  fx_lo T <= kt <= fx_hi T ->
  let h := Z.max (frsz Y) (frsz T) in
  let kn := rescale (ky * 2 ^ (h - frsz Y) + kt * 2 ^ (h - frsz T)) h (frsz N) in
  fx_lo N <= kn <= fx_hi N ->
  holds N (nr_iteration X Y M E T N x y) kn.
Proof.
  intros X Y M E T N x y kx ky HX HY H1 OE OT ON SX SY SM SE ST C1 C2 C3 C4 C5 C6 C7 B1 km Rm ke Re B2 kt Rt h kn Rn.
  unfold nr_iteration.
  assert (HM : holds M (rtl_mul X Y M x y) km) by (apply mul_holds; auto; apply H1).
  assert (HE : holds E (rtl_sub M M E (fixed_cst M 1) (rtl_mul X Y M x y)) ke).
  { pose proof (sub_holds M M E _ _ _ _ H1 HM OE) as P. cbv zeta in P. rewrite !Z.max_id, Z.sub_diag, Z.pow_0_r, !Z.mul_1_r in P. apply P; auto. }
  assert (HT : holds T (rtl_mul E Y T (rtl_sub M M E (fixed_cst M 1) (rtl_mul X Y M x y)) y) kt) by (apply mul_holds; auto).
  apply add_holds; auto.
Qed.

Lemma zext_holds : forall (a : bv) i f, bw a = i - 1 + f -> 1 <= i - 1 + f -> 0 <= bval a < 2 ^ bw a ->
  holds (sf i f) (zext a 1) (bval a).
Proof.
  intros a i f W H B. split; [unfold fx_ok, sf; cbn [isz frsz]; lia|]. rewrite W in B.
  replace (i - 1 + f) with (i + f - 1) in * by lia. split.
  - unfold fx_lo, fx_hi, sf; cbn [isz frsz sgn]. lia.
  - unfold zext, sf; cbn [isz frsz]. change (1 =? 0) with false. cbn iota. rewrite W. f_equal; [lia|].
    rewrite Z.mod_small; [reflexivity|]. rewrite (RtlFixedProps.pow_split (i + f)) by lia. lia.
Qed.

Lemma slice_holds : forall X lo, 0 <= lo <= 22 -> 2 ^ 23 <= X < 2 ^ 24 ->
  holds (sf 2 (23 - lo)) (zext (slice (mkbv 24 X) lo 23) 1) (X / 2 ^ lo).
Proof.
  intros X lo H B. unfold slice; cbn [bval]. rewrite Z.shiftr_div_pow2 by lia.
  assert (D : 0 <= X / 2 ^ lo < 2 ^ (23 - lo + 1)).
  { split; [apply Z.div_pos; lia|]. apply Z.div_lt_upper_bound; [lia|]. rewrite <- Z.pow_add_r by lia.
    replace (lo + (23 - lo + 1)) with 24 by lia. lia. }
  rewrite Z.mod_small by auto.
  apply (zext_holds (mkbv (23 - lo + 1) (X / 2 ^ lo))); cbn [bw bval]; try lia.
Qed.

(* the table: the entry of index i is the inverse of 1 + i/256 cut to 8 digits *)
Fixpoint table_ok (n : nat) : bool :=
  match n with
  | O => true
  | S n => (bval (inv_entry ML_Binary32 (Z.of_nat n)) =? 65536 / (256 + Z.of_nat n)) && table_ok n
  end.
Lemma table_all : table_ok 256 = true.
Proof. vm_compute. reflexivity. Qed.
Lemma table_ok_nth : forall n k, table_ok n = true -> (k < n)%nat ->
  bval (inv_entry ML_Binary32 (Z.of_nat k)) = 65536 / (256 + Z.of_nat k).
Proof.
  induction n as [|n IH]; intros k T L; [lia|]. cbn [table_ok] in T. apply andb_prop in T. destruct T as [T1 T2].
  destruct (Nat.eq_dec k n) as [->|]; [apply Z.eqb_eq in T1; exact T1|]. apply IH; auto; lia.
Qed.
Lemma inv_entry_holds : forall i, 0 <= i < 256 -> holds (sf 2 8) (inv_entry ML_Binary32 i) (65536 / (256 + i)).
Proof.
  intros i H. pose proof (table_ok_nth 256 (Z.to_nat i) table_all ltac:(lia)) as T. rewrite Z2Nat.id in T by lia.
  assert (B : 0 <= 65536 / (256 + i) <= 256).
  { split; [apply Z.div_pos; lia|]. apply Z.div_le_upper_bound; lia. }
  split; [unfold fx_ok; cbn; lia|]. split; [change (-512 <= 65536 / (256 + i) <= 511); lia|].
  rewrite (bv_eta (inv_entry ML_Binary32 i)), T. f_equal. rewrite Z.mod_small; [reflexivity|]. change (0 <= 65536 / (256 + i) < 1024). lia.
Qed.

Section Binary32.
Variable X : Z.
Hypothesis HX : 2 ^ 23 <= X < 2 ^ 24.

Definition x0 := X / 2 ^ 15.
Definition x1 := X / 2 ^ 7.
Definition y0 := 65536 / x0.
Definition e0 := 65536 - x0 * y0.
Definition y1 := (y0 * 2 ^ 16 + e0 * y0) / 2 ^ 8.
Definition e1 := 2 ^ 24 - x1 * y1 / 2 ^ 8.
Definition y2 := y1 * 2 ^ 8 + e1 * y1 / 2 ^ 16.
Definition d2 := 2 ^ 47 - X * y2.
Definition e2 := d2 / 2 ^ 8.
Definition y3 := (y2 * 2 ^ 15 + e2 * y2 / 2 ^ 24) / 2 ^ 15.
Definition d3 := 2 ^ 47 - X * y3.
Definition e3 := 2 ^ 48 - X * y3 * 2.
Definition y4 := y3 * 2 ^ 24 + e3 * y3 / 2 ^ 24.
Definition d4 := 2 ^ 71 - X * y4.

Lemma div_rem : forall a b, 0 < b -> exists r, 0 <= r < b /\ b * (a / b) = a - r.
Proof.
  intros a b H. exists (a mod b). pose proof (Z.mod_pos_bound a b H). pose proof (Z.div_mod a b ltac:(lia)). lia.
Qed.

Lemma x0_range : 256 <= x0 < 512.
Proof. unfold x0. split; [apply Z.div_le_lower_bound|apply Z.div_lt_upper_bound]; lia. Qed.
Lemma x1_range : 65536 <= x1 < 131072.
Proof. unfold x1. split; [apply Z.div_le_lower_bound|apply Z.div_lt_upper_bound]; lia. Qed.
Lemma x1_x0 : exists s, 0 <= s < 256 /\ x1 = 256 * x0 + s.
Proof.
  destruct (div_rem x1 256 ltac:(lia)) as (s & B & E). exists s. split; auto.
  assert (x1 / 256 = x0); [|lia]. unfold x1, x0. rewrite Z.div_div by lia. reflexivity.
Qed.
Lemma X_x1 : exists s, 0 <= s < 128 /\ X = 128 * x1 + s.
Proof.
  destruct (div_rem X 128 ltac:(lia)) as (s & B & E). exists s. split; auto. unfold x1. change (2 ^ 7) with 128. lia.
Qed.

Lemma e0_range : 0 <= e0 < x0.
Proof. unfold e0, y0. pose proof x0_range. destruct (div_rem 65536 x0 ltac:(lia)) as (r & B & E). lia. Qed.
Lemma y0_range : 128 <= y0 <= 256.
Proof.
  pose proof x0_range. unfold y0. split; [apply Z.div_le_lower_bound; lia|apply Z.div_le_upper_bound; lia].
Qed.

Lemma r1_range : 0 <= 2 ^ 24 - x0 * y1 <= 1525.
Proof.
  pose proof x0_range. pose proof e0_range. pose proof y0_range. unfold y1.
  destruct (div_rem (y0 * 2 ^ 16 + e0 * y0) (2 ^ 8) ltac:(lia)) as (r & B & E).
  set (q := (y0 * 2 ^ 16 + e0 * y0) / 2 ^ 8) in *.
  assert (EQ : 2 ^ 8 * (2 ^ 24 - x0 * q) = e0 * e0 + x0 * r).
  { assert (2 ^ 8 * q = y0 * (2 ^ 16 + e0) - r) by lia.
    assert (x0 * y0 = 2 ^ 16 - e0) by (unfold e0; lia).
    replace (2 ^ 8 * (2 ^ 24 - x0 * q)) with (2 ^ 32 - x0 * (2 ^ 8 * q)) by ring.
    replace (2 ^ 8 * q) with (y0 * (2 ^ 16 + e0) - r) by lia.
    replace (x0 * (y0 * (2 ^ 16 + e0) - r)) with (x0 * y0 * (2 ^ 16 + e0) - x0 * r) by ring.
    replace (x0 * y0) with (2 ^ 16 - e0) by lia. ring. }
  assert (0 <= e0 * e0 <= 510 * 510) by nia. assert (0 <= x0 * r <= 511 * 255) by nia. lia.
Qed.
Lemma y1_range : 32768 <= y1 <= 65536.
Proof. pose proof x0_range. pose proof r1_range. nia. Qed.

Lemma e1_range : -65280 <= e1 <= 1526.
Proof.
  pose proof x1_range. pose proof r1_range. pose proof y1_range. destruct x1_x0 as (s & Bs & Es).
  unfold e1. destruct (div_rem (x1 * y1) (2 ^ 8) ltac:(lia)) as (r & B & E).
  set (q := x1 * y1 / 2 ^ 8) in *.
  assert (2 ^ 8 * (2 ^ 24 - q) = 2 ^ 8 * (2 ^ 24 - x0 * y1) - s * y1 + r) by (rewrite Es in E; lia).
  assert (0 <= s * y1 <= 255 * 65536) by nia. lia.
Qed.

Lemma r2_range : - 65287 <= 2 ^ 40 - x1 * y2 <= 16779000.
Proof.
  pose proof x1_range. pose proof e1_range as Be. pose proof y1_range.
  unfold y2. destruct (div_rem (e1 * y1) (2 ^ 16) ltac:(lia)) as (r & B & E).
  set (q := e1 * y1 / 2 ^ 16) in *.
  assert (exists rho, 0 <= rho < 256 /\ x1 * y1 = 2 ^ 8 * (2 ^ 24 - e1) + rho) as (rho & Br & Er).
  { unfold e1. destruct (div_rem (x1 * y1) (2 ^ 8) ltac:(lia)) as (t & Bt & Et). exists t. split; [lia|].
    replace (2 ^ 24 - (2 ^ 24 - x1 * y1 / 2 ^ 8)) with (x1 * y1 / 2 ^ 8) by lia. lia. }
  assert (EQ : 2 ^ 16 * (2 ^ 40 - x1 * (y1 * 2 ^ 8 + q)) = 2 ^ 8 * (e1 * e1) - rho * (2 ^ 24 + e1) + x1 * r).
  { replace (2 ^ 16 * (2 ^ 40 - x1 * (y1 * 2 ^ 8 + q))) with (2 ^ 56 - x1 * y1 * 2 ^ 24 - x1 * (2 ^ 16 * q)) by ring.
    rewrite E. replace (x1 * (e1 * y1 - r)) with (x1 * y1 * e1 - x1 * r) by ring. rewrite Er. ring. }
  assert (0 <= e1 * e1 <= 65280 * 65280) by nia.
  assert (0 <= rho * (2 ^ 24 + e1) <= 255 * (2 ^ 24 + 1526)) by nia.
  assert (0 <= x1 * r <= 131071 * 65535) by nia. lia.
Qed.
Lemma y2_range : 8388500 <= y2 <= 2 ^ 24.
Proof. pose proof x1_range. pose proof r2_range. nia. Qed.

Lemma d2_range : - 2200000000 <= d2 <= 2200000000.
Proof.
  pose proof x1_range. pose proof r2_range. pose proof y2_range. destruct X_x1 as (s & Bs & Es).
  assert (d2 = 2 ^ 7 * (2 ^ 40 - x1 * y2) - s * y2) by (unfold d2; rewrite Es at 1; ring).
  assert (0 <= s * y2 <= 127 * 2 ^ 24) by nia. lia.
Qed.
Lemma e2_range : - 8593750 <= e2 <= 8593750.
Proof.
  pose proof d2_range. unfold e2. split; [apply Z.div_le_lower_bound; lia|apply Z.div_le_upper_bound; lia].
Qed.

Lemma d3_range : 0 <= d3 <= X + 2 ^ 16.
Proof.
  pose proof d2_range. pose proof e2_range. pose proof y2_range. unfold d3, y3.
  destruct (div_rem (e2 * y2) (2 ^ 24) ltac:(lia)) as (r' & B' & E'). set (a := e2 * y2 / 2 ^ 24) in *.
  destruct (div_rem (y2 * 2 ^ 15 + a) (2 ^ 15) ltac:(lia)) as (r & B & E). set (q := (y2 * 2 ^ 15 + a) / 2 ^ 15) in *.
  destruct (div_rem d2 (2 ^ 8) ltac:(lia)) as (t & Bt & Et). fold e2 in Et.
  assert (EQ : 2 ^ 39 * (2 ^ 47 - X * q) = 2 ^ 39 * t + d2 * e2 + X * r' + 2 ^ 24 * (X * r)).
  { replace (2 ^ 39 * (2 ^ 47 - X * q)) with (2 ^ 86 - 2 ^ 24 * (X * (2 ^ 15 * q))) by ring. rewrite E.
    replace (2 ^ 24 * (X * (y2 * 2 ^ 15 + a - r))) with (2 ^ 39 * (X * y2) + X * (2 ^ 24 * a) - 2 ^ 24 * (X * r)) by ring.
    rewrite E'. replace (X * (e2 * y2 - r')) with (X * y2 * e2 - X * r') by ring.
    replace (X * y2) with (2 ^ 47 - d2) by (unfold d2; ring).
    replace (2 ^ 39 * (2 ^ 47 - d2)) with (2 ^ 86 - 2 ^ 39 * d2) by ring.
    replace d2 with (2 ^ 8 * e2 + t) at 1 by lia. ring. }
  assert (0 <= d2 * e2 <= 2200000000 * 8593750).
  { split; [|nia]. destruct (Z.le_gt_cases 0 e2); [assert (0 <= d2) by lia; nia|assert (d2 <= 0) by lia; nia]. }
  assert (0 <= X * r' <= X * (2 ^ 24 - 1)) by nia.
  assert (0 <= X * r <= X * (2 ^ 15 - 1)) by nia. lia.
Qed.
Lemma y3_range : 8388592 <= y3 <= 2 ^ 24.
Proof. pose proof d3_range. unfold d3 in *. nia. Qed.
Lemma e3_d3 : e3 = 2 * d3.
Proof. unfold e3, d3. ring. Qed.

Lemma d4_eq : exists r, 0 <= r < 2 ^ 24 /\ 2 ^ 24 * d4 = 2 * (d3 * d3) + X * r.
Proof.
  destruct (div_rem (e3 * y3) (2 ^ 24) ltac:(lia)) as (r & B & E). exists r. split; auto.
  unfold d4, y4. set (q := e3 * y3 / 2 ^ 24) in *.
  replace (2 ^ 24 * (2 ^ 71 - X * (y3 * 2 ^ 24 + q))) with (2 ^ 95 - X * y3 * 2 ^ 48 - X * (2 ^ 24 * q)) by ring.
  rewrite E. replace (X * (e3 * y3 - r)) with (X * y3 * e3 - X * r) by ring. rewrite e3_d3.
  replace (X * y3) with (2 ^ 47 - d3) by (unfold d3; ring). ring.
Qed.
Lemma d4_range : 0 <= d4 /\ 64 * d4 <= 193 * X + 2 ^ 16.
Proof.
  pose proof d3_range. destruct d4_eq as (r & B & E).
  assert (0 <= d3 * d3 <= (X + 2 ^ 16) * (X + 2 ^ 16)) by nia.
  assert (0 <= X * r <= X * (2 ^ 24 - 1)) by nia.
  assert ((X + 2 ^ 16) * (X + 2 ^ 16) <= 2 ^ 24 * X + 2 ^ 17 * X + 2 ^ 32) by nia. lia.
Qed.
Lemma y4_range : 2 ^ 47 - 4 <= y4 <= 2 ^ 48.
Proof. pose proof d4_range. unfold d4 in *. nia. Qed.

Lemma tab_index_eq : bval (slice (mkbv 24 X) 15 22) = x0 - 256.
Proof.
  pose proof x0_range. unfold slice; cbn [bval]. rewrite Z.shiftr_div_pow2 by lia. fold x0.
  change (2 ^ (22 - 15 + 1)) with 256. symmetry. apply (Z.mod_unique_pos _ _ 1); lia.
Qed.

Lemma rescale_same : forall k f, rescale k f f = k.
Proof. intros. unfold rescale. rewrite Z.leb_refl, Z.sub_diag. lia. Qed.
Lemma rescale_down : forall k f g n, f = g + n -> 0 < n -> rescale k f g = k / 2 ^ n.
Proof. intros k f g n -> H. unfold rescale. destruct (Z.leb_spec (g + n) g); [lia|]. f_equal. f_equal. lia. Qed.
Lemma rescale_up : forall k f g n, g = f + n -> 0 <= n -> rescale k f g = k * 2 ^ n.
Proof. intros k f g n -> H. unfold rescale. destruct (Z.leb_spec f (f + n)); [|lia]. f_equal. f_equal. lia. Qed.

Ltac fxr := match goal with |- fx_lo ?F <= _ <= fx_hi ?F =>
  let l := eval vm_compute in (fx_lo F) in let u := eval vm_compute in (fx_hi F) in
  change (fx_lo F) with l; change (fx_hi F) with u end.
Ltac fmts := unfold fx_ok, sf; cbn [isz frsz sgn]; try reflexivity; try lia.

Lemma first_holds : holds (sf 2 16)
  (nr_iteration (sf 2 8) (sf 2 8) (sf 2 16) (sf (-3) 16) (sf 2 24) (sf 2 16)
     (zext (slice (mkbv 24 X) 15 23) 1) (inv_entry ML_Binary32 (x0 - 256))) y1.
Proof.
  pose proof x0_range. pose proof y0_range. pose proof e0_range. pose proof y1_range.
  assert (HY : holds (sf 2 8) (inv_entry ML_Binary32 (x0 - 256)) y0).
  { unfold y0. replace x0 with (256 + (x0 - 256)) at 2 by lia. apply inv_entry_holds. lia. }
  pose proof (slice_holds X 15 ltac:(lia) HX) as HX0. change (23 - 15) with 8 in HX0. fold x0 in HX0.
  assert (0 <= x0 * y0 <= 65536) by (unfold e0 in *; lia).
  assert (0 <= e0 * y0 <= 511 * 256) by nia.
  pose proof (nr_holds (sf 2 8) (sf 2 8) (sf 2 16) (sf (-3) 16) (sf 2 24) (sf 2 16) _ _ x0 y0 HX0 HY (fixed_cst_one 16 ltac:(lia))) as P.
  cbv zeta in P. change (frsz (sf 2 8)) with 8 in P. change (frsz (sf 2 16)) with 16 in P.
  change (frsz (sf (-3) 16)) with 16 in P. change (frsz (sf 2 24)) with 24 in P.
  rewrite (rescale_same (x0 * y0) 16 : rescale (x0 * y0) (8 + 8) 16 = x0 * y0) in P.
  rewrite (rescale_same (2 ^ 16 - x0 * y0) 16 : rescale (2 ^ 16 - x0 * y0) 16 16 = e0) in P.
  rewrite (rescale_same (e0 * y0) 24 : rescale (e0 * y0) (16 + 8) 24 = e0 * y0) in P.
  change (Z.max 8 24) with 24 in P. rewrite (rescale_down _ 24 16 8) in P by lia.
  change (24 - 24) with 0 in P. rewrite Z.pow_0_r, Z.mul_1_r in P. change (24 - 8) with 16 in P. fold y1 in P.
  apply P; fmts; try (fxr; lia); change (isz (sf 2 8)) with 2; change (isz (sf (-3) 16)) with (-3); try lia.
Qed.

Lemma second_holds : forall y, holds (sf 2 16) y y1 -> holds (sf 2 24)
  (nr_iteration (sf 2 16) (sf 2 16) (sf 2 24) (sf (-6) 24) (sf 2 24) (sf 2 24) (zext (slice (mkbv 24 X) 7 23) 1) y) y2.
Proof.
  intros y HY. pose proof x1_range. pose proof y1_range. pose proof e1_range. pose proof y2_range.
  pose proof (slice_holds X 7 ltac:(lia) HX) as HX0. change (23 - 7) with 16 in HX0. fold x1 in HX0.
  assert (0 <= x1 * y1 < 131072 * 65536) by nia.
  assert (- 65280 * 65536 <= e1 * y1 <= 1526 * 65536) by nia.
  assert (- 65280 <= e1 * y1 / 2 ^ 16 <= 1526) by (split; [apply Z.div_le_lower_bound; lia|apply Z.div_le_upper_bound; lia]).
  assert (Km : 2 ^ 24 - 1526 <= x1 * y1 / 2 ^ 8 <= 2 ^ 24 + 65280) by (unfold e1 in *; lia).
  pose proof (nr_holds (sf 2 16) (sf 2 16) (sf 2 24) (sf (-6) 24) (sf 2 24) (sf 2 24) _ _ x1 y1 HX0 HY (fixed_cst_one 24 ltac:(lia))) as P.
  cbv zeta in P. change (frsz (sf 2 16)) with 16 in P. change (frsz (sf (-6) 24)) with 24 in P. change (frsz (sf 2 24)) with 24 in P.
  rewrite (rescale_down _ (16 + 16) 24 8) in P by lia.
  rewrite (rescale_same (2 ^ 24 - x1 * y1 / 2 ^ 8) 24) in P. fold e1 in P.
  rewrite (rescale_down _ (24 + 16) 24 16) in P by lia.
  change (Z.max 16 24) with 24 in P. rewrite (rescale_same (_ + _) 24) in P.
  change (24 - 24) with 0 in P. rewrite Z.pow_0_r, Z.mul_1_r in P. change (24 - 16) with 8 in P. fold y2 in P.
  apply P; fmts; try (fxr; lia); change (isz (sf 2 16)) with 2; change (isz (sf (-6) 24)) with (-6); try lia.
Qed.

Lemma full_holds : holds (sf 2 23) (zext (mkbv 24 X) 1) X.
Proof. apply (zext_holds (mkbv 24 X) 2 23); cbn [bw bval]; try lia. Qed.

Lemma third_holds : forall y, holds (sf 2 24) y y2 -> holds (sf 2 24)
  (nr_iteration (sf 2 23) (sf 2 24) (sf 2 47) (sf (-12) 39) (sf 2 39) (sf 2 24) (zext (mkbv 24 X) 1) y) y3.
Proof.
  intros y HY. pose proof y2_range. pose proof d2_range. pose proof e2_range. pose proof y3_range. pose proof full_holds as HX0.
  assert (Km : 2 ^ 47 - 2200000000 <= X * y2 <= 2 ^ 47 + 2200000000) by (unfold d2 in *; lia).
  assert (- 8593750 * 2 ^ 24 <= e2 * y2 <= 8593750 * 2 ^ 24) by nia.
  assert (- 8593750 <= e2 * y2 / 2 ^ 24 <= 8593750) by (split; [apply Z.div_le_lower_bound; lia|apply Z.div_le_upper_bound; lia]).
  pose proof (nr_holds (sf 2 23) (sf 2 24) (sf 2 47) (sf (-12) 39) (sf 2 39) (sf 2 24) _ _ X y2 HX0 HY (fixed_cst_one 47 ltac:(lia))) as P.
  cbv zeta in P. change (frsz (sf 2 23)) with 23 in P. change (frsz (sf 2 24)) with 24 in P. change (frsz (sf 2 47)) with 47 in P.
  change (frsz (sf (-12) 39)) with 39 in P. change (frsz (sf 2 39)) with 39 in P.
  rewrite (rescale_same (X * y2) 47 : rescale (X * y2) (23 + 24) 47 = X * y2) in P. fold d2 in P.
  rewrite (rescale_down d2 47 39 8) in P by lia. fold e2 in P.
  rewrite (rescale_down _ (39 + 24) 39 24) in P by lia.
  change (Z.max 24 39) with 39 in P. rewrite (rescale_down _ 39 24 15) in P by lia.
  change (39 - 39) with 0 in P. rewrite Z.pow_0_r, Z.mul_1_r in P. change (39 - 24) with 15 in P. fold y3 in P.
  apply P; fmts; try (fxr; lia); change (isz (sf 2 23)) with 2; change (isz (sf 2 24)) with 2; change (isz (sf (-12) 39)) with (-12); try lia.
Qed.

Lemma fourth_holds : forall y, holds (sf 2 24) y y3 -> holds (sf 2 48)
  (nr_iteration (sf 2 23) (sf 2 24) (sf 2 48) (sf (-19) 48) (sf 2 48) (sf 2 48) (zext (mkbv 24 X) 1) y) y4.
Proof.
  intros y HY. pose proof y3_range. pose proof d3_range. pose proof e3_d3. pose proof y4_range. pose proof full_holds as HX0.
  assert (Km : 2 ^ 47 - 2 ^ 25 <= X * y3 <= 2 ^ 47) by (unfold d3 in *; lia).
  assert (0 <= e3 * y3 <= 2 ^ 26 * 2 ^ 24) by nia.
  assert (0 <= e3 * y3 / 2 ^ 24 <= 2 ^ 26) by (split; [apply Z.div_pos; lia|apply Z.div_le_upper_bound; lia]).
  pose proof (nr_holds (sf 2 23) (sf 2 24) (sf 2 48) (sf (-19) 48) (sf 2 48) (sf 2 48) _ _ X y3 HX0 HY (fixed_cst_one 48 ltac:(lia))) as P.
  cbv zeta in P. change (frsz (sf 2 23)) with 23 in P. change (frsz (sf 2 24)) with 24 in P. change (frsz (sf 2 48)) with 48 in P.
  change (frsz (sf (-19) 48)) with 48 in P.
  rewrite (rescale_up (X * y3) (23 + 24) 48 1) in P by lia. change (2 ^ 1) with 2 in P.
  rewrite (rescale_same (2 ^ 48 - X * y3 * 2) 48 : _ = e3) in P.
  rewrite (rescale_down _ (48 + 24) 48 24) in P by lia.
  change (Z.max 24 48) with 48 in P. rewrite (rescale_same (_ + _) 48) in P.
  change (48 - 48) with 0 in P. rewrite Z.pow_0_r, Z.mul_1_r in P. change (48 - 24) with 24 in P. fold y4 in P.
  apply P; fmts; try (fxr; lia); change (isz (sf 2 23)) with 2; change (isz (sf 2 24)) with 2; change (isz (sf (-19) 48)) with (-19); try lia.
Qed.

Lemma approximation_int : bval (approximation ML_Binary32 (mkbv 24 X)) = y4.
Proof.
  pose proof y4_range.
  assert (P : holds (sf 2 48) (approximation ML_Binary32 (mkbv 24 X)) y4).
  { unfold approximation. change (msz ML_Binary32) with 24. unfold aix.
    change (24 - 2 - 8 + 1) with 15. change (24 - 2) with 22. rewrite tab_index_eq.
    apply fourth_holds. apply third_holds. apply second_holds. exact first_holds. }
  destruct P as [_ [_ E]]. rewrite E; cbn [bval]. apply Z.mod_small. change (isz (sf 2 48) + frsz (sf 2 48)) with 50. lia.
Qed.
End Binary32.
