(** Final statements for the integer hardware blocks (C27, C28, C32, C33, C34). *)
From Coq Require Import ZArith List Bool Lia.
From Verif Require Import HwIntModel HwIntSpec HwIntProofs.
Import ListNotations.
Open Scope Z_scope.

(** C27: the 32-bit sequence returns the number of leading zeros of every code *)
Theorem software_clz32_correct : forall x, 0 <= x < 2 ^ 32 -> is_clz 32 x (clz32_seq x).
Proof. exact clz32_ok. Qed.
Example software_clz32_example : 0 <= 1048577 < 2 ^ 32 /\ clz32_seq 1048577 = 11 /\ clz32_seq 0 = 32.
Proof. vm_compute. repeat split; discriminate. Qed.

(** the specification determines the count *)
Theorem clz_spec_unique : forall w v n1 n2, is_clz w v n1 -> is_clz w v n2 -> n1 = n2.
Proof. exact is_clz_unique. Qed.
Example clz_spec_example : is_clz 8 19 3.
Proof. vm_compute. repeat split; intros; discriminate. Qed.

(** C28: hardware counter, every width, every input: the output port (of the
    declared width, without overflow) carries the leading-zero count, and equals
    the software emulation used by the generated tests *)
Theorem lzc_block_correct : forall w v, (0 < w)%nat -> 0 <= v < 2 ^ Z.of_nat w ->
  is_clz (Z.of_nat w) v (lzc_port w v) /\ lzc_port w v = Z.of_nat (clz_emulate w v).
Proof.
  intros w v Hw Hv. rewrite lzc_port_ok, clz_emulate_loop by auto.
  split; auto using lzc_loop_clz.
Qed.
Example lzc_block_example : lzc_port 13 100 = 6 /\ lzc_port 8 0 = 8 /\ lzc_out_width 8 = 4.
Proof. vm_compute; auto. Qed.

(** C32: compound adder, every operand width and every slice limit >= 1: the two
    outputs are the exact sum and sum plus one *)
Theorem compound_adder_correct : forall ll x y, (1 <= ll)%nat -> length x = length y ->
  compound_adder ll x y = Some (vec_val x + vec_val y, vec_val x + vec_val y + 1).
Proof.
  intros ll x y Hll Hl. unfold compound_adder.
  destruct (rec_add_ok (S (length x)) ll Hll x y Hl) as ([[[a ap1] g] p] & E & (A & B & C & D & _)); [lia|].
  rewrite E, !vec_val_app, A, B. cbn [vec_val]. unfold zb in *. f_equal; f_equal; lia.
Qed.
Example compound_adder_example :
  compound_adder 2 (vec_of 7 93) (vec_of 7 121) = Some (214, 215) /\
  compound_adder 1 (vec_of 7 100) (vec_of 7 27) = Some (127, 128).
Proof. vm_compute; auto. Qed.

(** an accepted slice limit of zero never terminates *)
Theorem compound_adder_limit_zero_refuted : forall fuel x y,
  (1 <= length x)%nat -> length x = length y -> rec_add fuel 0 x y = None.
Proof.
  induction fuel as [|f IH]; intros x y Hx Hl; [reflexivity|]. cbn [rec_add].
  destruct (Nat.leb_spec (length x) 0); [lia|].
  set (h := Nat.div (length x) 2).
  rewrite (IH (skipn h x) (skipn h y)).
  - destruct (rec_add f 0 (firstn h x) (firstn h y)) as [[[[? ?] ?] ?]|]; reflexivity.
  - rewrite skipn_length. assert (h < length x)%nat by (apply Nat.div_lt; lia). lia.
  - rewrite !skipn_length. lia.
Qed.
Example compound_adder_limit_zero_example : (1 <= length [true; false])%nat.
Proof. cbn; lia. Qed.

(** C33: integer divider with operands of one common width and a result at
    least as wide: exact quotient, for every dividend and non-null divisor; the
    configured value for a null divisor *)
Theorem int_div_correct_partial : forall w rs by_zero a b,
  (w <= rs)%nat -> 0 <= a < 2 ^ Z.of_nat w -> 0 <= b < 2 ^ Z.of_nat w ->
  int_div w w rs by_zero a b = if b =? 0 then by_zero else a / b.
Proof.
  intros w rs bz a b Hrs Ha Hb. destruct (Z.eqb_spec b 0) as [->|Hnz].
  - unfold int_div. destruct (iter rs _ _) as [[[? ?] ?] ?]. reflexivity.
  - apply int_div_ok; auto; lia.
Qed.
Example int_div_example : int_div 8 8 8 255 200 7 = 28 /\ int_div 8 8 8 255 3 7 = 0
  /\ int_div 8 8 8 255 3 0 = 255.
Proof. vm_compute; auto. Qed.
(** different declared widths are accepted but give wrong quotients: 200/3 with an
    8-bit dividend and a 4-bit divisor *)
Theorem int_div_mixed_width_refuted : exists wd wv rs a b,
  0 <= a < 2 ^ Z.of_nat wd /\ 0 < b < 2 ^ Z.of_nat wv /\ (wd <= rs)%nat /\
  int_div wd wv rs 255 a b <> a / b.
Proof. exists 8%nat, 4%nat, 8%nat, 200, 3. vm_compute. repeat split; discriminate || auto. Qed.

(** C34: leading-zero anticipator.  Operands [x], [y] are any integers of
    width+1 two's complement bits (this contains the signed and the unsigned
    operands of [width] bits).  For a non-negative sum, the positive count is the
    leading-zero count of the sum on width+1 bits or one less. *)
Theorem lza_positive_within_one : forall w x y n,
  - 2 ^ Z.of_nat w <= x < 2 ^ Z.of_nat w -> - 2 ^ Z.of_nat w <= y < 2 ^ Z.of_nat w ->
  0 <= x + y -> is_clz (Z.of_nat w + 1) (x + y) n ->
  Z.of_nat (lza_pos w x y) = n \/ Z.of_nat (lza_pos w x y) = n - 1.
Proof. exact lza_pos_ok. Qed.
Example lza_positive_example : lza_pos 6 (-13) 15 = 5%nat /\ is_clz 7 2 5 /\
  lza_pos 6 (-15) 15 = 6%nat /\ is_clz 7 0 7.
Proof. vm_compute. repeat split; intros; discriminate || auto. Qed.
(** For a negative sum the same holds of the one's complement of the sum ... *)
Theorem lza_negative_within_one_partial : forall w x y n,
  - 2 ^ Z.of_nat w <= x < 2 ^ Z.of_nat w -> - 2 ^ Z.of_nat w <= y < 2 ^ Z.of_nat w ->
  x + y < 0 -> is_clz (Z.of_nat w + 1) (- (x + y) - 1) n ->
  Z.of_nat (lza_neg w x y) = n \/ Z.of_nat (lza_neg w x y) = n - 1.
Proof. exact lza_neg_ok. Qed.
Example lza_negative_example : lza_neg 6 (-20) 15 = 4%nat /\ is_clz 7 4 4.
Proof. vm_compute. repeat split; intros; discriminate || auto. Qed.
(** ... and of its absolute value unless that is a power of two, *)
Theorem lza_negative_abs_partial : forall w x y n,
  - 2 ^ Z.of_nat w <= x < 2 ^ Z.of_nat w -> - 2 ^ Z.of_nat w <= y < 2 ^ Z.of_nat w ->
  x + y < 0 -> (forall e, 0 <= e -> - (x + y) <> 2 ^ e) ->
  is_clz (Z.of_nat w + 1) (Z.abs (x + y)) n ->
  Z.of_nat (lza_neg w x y) = n \/ Z.of_nat (lza_neg w x y) = n - 1.
Proof.
  intros w x y n Hx Hy Hs Hp Hn. apply lza_neg_ok; auto.
  replace (Z.abs (x + y)) with (- (x + y)) in Hn by lia.
  assert (H1 : - (x + y) <> 1) by (intros E; apply (Hp 0); cbn; lia).
  destruct Hn as (A & B & C). split; auto. split; [lia|].
  intros _. destruct C as [C1 C2]; [lia|].
  destruct (Z.eq_dec n (Z.of_nat w + 1)) as [->|Hne].
  { replace (Z.of_nat w + 1 - (Z.of_nat w + 1)) with 0 in C2 by lia. change (2 ^ 0) with 1 in C2. lia. }
  specialize (Hp (Z.of_nat w + 1 - 1 - n) ltac:(lia)). lia.
Qed.
Example lza_negative_abs_example : (forall e, 0 <= e -> - (-30 + 7) <> 2 ^ e) /\ is_clz 7 23 2 /\ lza_neg 6 (-30) 7 = 2%nat.
Proof.
  split; [|vm_compute; repeat split; intros; discriminate || auto].
  intros e He E. cbn in E. destruct (Z.leb_spec e 4).
  - assert (2 ^ e <= 2 ^ 4) by (apply Z.pow_le_mono_r; lia). cbn in *; lia.
  - assert (2 ^ 5 <= 2 ^ e) by (apply Z.pow_le_mono_r; lia). cbn in *; lia.
Qed.
(** where the tolerance stated by the generated testbench is exceeded. *)
Theorem lza_negative_power_refuted : exists w x y n,
  - 2 ^ (Z.of_nat w - 1) <= x < 2 ^ (Z.of_nat w - 1) /\ - 2 ^ (Z.of_nat w - 1) <= y < 2 ^ (Z.of_nat w - 1) /\
  x + y < 0 /\ is_clz (Z.of_nat w + 1) (Z.abs (x + y)) n /\
  Z.of_nat (lza_neg w x y) <> n /\ Z.of_nat (lza_neg w x y) <> n - 1.
Proof.
  exists 4%nat, (-8), (-8), 0. vm_compute. repeat split; intros; discriminate || auto.
Qed.

Print Assumptions software_clz32_correct.
Print Assumptions lzc_block_correct.
Print Assumptions compound_adder_correct.
Print Assumptions int_div_correct_partial.
Print Assumptions lza_positive_within_one.
Print Assumptions lza_negative_abs_partial.
