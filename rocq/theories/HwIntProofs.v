From Coq Require Import ZArith List Bool Lia ZifyBool.
From Verif Require Import HwIntModel HwIntSpec.
Import ListNotations.
Open Scope Z_scope.

(** ** leading zero count *)
Lemma lzc_loop_spec w x :
  ((forall i, (i < w)%nat -> x i = false) /\ lzc_loop w x = w) \/
  (exists i0, (i0 < w)%nat /\ x i0 = true /\ (forall i, (i0 < i < w)%nat -> x i = false) /\
     lzc_loop w x = (w - 1 - i0)%nat).
Proof.
  unfold lzc_loop.
  assert (H : forall m, (m <= w)%nat ->
   let r := fold_left (fun tmp i => if x i then (w - 1 - i)%nat else tmp) (seq 0 m) w in
   ((forall i, (i < m)%nat -> x i = false) /\ r = w) \/
   (exists i0, (i0 < m)%nat /\ x i0 = true /\ (forall i, (i0 < i < m)%nat -> x i = false) /\
     r = (w - 1 - i0)%nat)).
  { induction m as [|m IH]; intros Hm; cbn zeta.
    - left; split; [intros; lia|reflexivity].
    - rewrite seq_S, fold_left_app. cbn [fold_left]. rewrite Nat.add_0_l.
      destruct (x m) eqn:E.
      + right. exists m. repeat split; auto; intros; lia.
      + destruct IH as [[A B]|(i0 & A & B & C & D)]; [lia| |].
        * left. split; auto. intros i Hi. destruct (Nat.eq_dec i m); [subst; auto|apply A; lia].
        * right. exists i0. repeat split; auto; try lia. intros i Hi.
          destruct (Nat.eq_dec i m); [subst; auto|apply C; lia]. }
  apply (H w); auto.
Qed.

Lemma lzc_loop_clz w v : 0 <= v < 2 ^ Z.of_nat w ->
  is_clz (Z.of_nat w) v (Z.of_nat (lzc_loop w (bit v))).
Proof.
  intros Hv. destruct (lzc_loop_spec w (bit v)) as [[A B]|(i0 & A & B & C & D)].
  - rewrite B. split; [lia|split; auto]. intros Hnz. exfalso.
    assert (0 < v) by lia.
    pose proof (Z.log2_spec v H) as [L1 L2]. pose proof (Z.log2_nonneg v).
    assert (Z.log2 v < Z.of_nat w).
    { apply Z.log2_lt_pow2; lia. }
    specialize (A (Z.to_nat (Z.log2 v)) ltac:(lia)). unfold bit in A.
    rewrite Z2Nat.id in A by lia. rewrite Z.bit_log2 in A by lia. discriminate.
  - assert (Hnz : v <> 0) by (intros ->; unfold bit in B; rewrite Z.bits_0 in B; discriminate).
    assert (0 < v) by lia.
    pose proof (Z.log2_spec v H) as [L1 L2]. pose proof (Z.log2_nonneg v).
    assert (Z.log2 v < Z.of_nat w) by (apply Z.log2_lt_pow2; lia).
    assert (E : Z.of_nat i0 = Z.log2 v).
    { destruct (Z.lt_trichotomy (Z.of_nat i0) (Z.log2 v)) as [H2|[H2|H2]]; auto.
      - specialize (C (Z.to_nat (Z.log2 v)) ltac:(lia)). unfold bit in C.
        rewrite Z2Nat.id in C by lia. rewrite Z.bit_log2 in C by lia. discriminate.
      - unfold bit in B. rewrite Z.bits_above_log2 in B by lia. discriminate. }
    rewrite D. split; [lia|split; [lia|]]. intros _.
    replace (Z.of_nat (w - 1 - i0)) with (Z.of_nat w - 1 - Z.log2 v) by lia.
    replace (Z.of_nat w - 1 - (Z.of_nat w - 1 - Z.log2 v)) with (Z.log2 v) by lia.
    replace (Z.of_nat w - (Z.of_nat w - 1 - Z.log2 v)) with (Z.succ (Z.log2 v)) by lia. lia.
Qed.

Lemma is_clz_unique w v n1 n2 : is_clz w v n1 -> is_clz w v n2 -> n1 = n2.
Proof.
  intros (A1 & B1 & C1) (A2 & B2 & C2).
  destruct (Z.eq_dec v 0) as [->|Hv]; [rewrite B1, B2 by auto; reflexivity|].
  destruct (C1 Hv) as [P1 Q1]. destruct (C2 Hv) as [P2 Q2].
  assert (0 < v \/ v < 0) as [Hp|Hn] by lia.
  2:{ assert (0 <= 2 ^ (w - 1 - n1)) by (apply Z.pow_nonneg; lia). lia. }
  destruct (Z.eq_dec n1 w).
  { subst. replace (w - w) with 0 in Q1 by lia. change (2 ^ 0) with 1 in Q1. lia. }
  destruct (Z.eq_dec n2 w).
  { subst. replace (w - w) with 0 in Q2 by lia. change (2 ^ 0) with 1 in Q2. lia. }
  destruct (Z.lt_trichotomy n1 n2) as [H|[H|H]]; auto.
  - pose proof (Z.pow_le_mono_r 2 (w - n2) (w - 1 - n1)). lia.
  - pose proof (Z.pow_le_mono_r 2 (w - n1) (w - 1 - n2)). lia.
Qed.

Lemma lzc_port_ok w v : (0 < w)%nat -> 0 <= v < 2 ^ Z.of_nat w ->
  lzc_port w v = Z.of_nat (lzc_loop w (bit v)).
Proof.
  intros Hw Hv. unfold lzc_port, lzc_out_width.
  destruct (lzc_loop_clz w v Hv) as [A _].
  apply Z.mod_small. pose proof (Z.log2_spec (Z.of_nat w) ltac:(lia)) as [_ L].
  rewrite Z.add_1_r. lia.
Qed.

Lemma clz_emulate_from_spec w v fuel : forall i, (i + fuel = w)%nat ->
  (forall j, (w - i <= j < w)%nat -> bit v j = false) ->
  ((forall j, (j < w)%nat -> bit v j = false) /\ clz_emulate_from w v i fuel = w) \/
  exists i0, (i0 < w)%nat /\ bit v i0 = true /\ (forall j, (i0 < j < w)%nat -> bit v j = false) /\
    clz_emulate_from w v i fuel = (w - 1 - i0)%nat.
Proof.
  induction fuel as [|f IH]; intros i Hi Hz; cbn [clz_emulate_from].
  - left; split; auto. intros; apply Hz; lia.
  - destruct (bit v (w - 1 - i)) eqn:E.
    + right. exists (w - 1 - i)%nat. repeat split; auto; try lia. intros; apply Hz; lia.
    + apply IH; [lia|]. intros j Hj.
      destruct (Nat.eq_dec j (w - 1 - i)); [subst; auto|apply Hz; lia].
Qed.

Lemma clz_emulate_loop w v : clz_emulate w v = lzc_loop w (bit v).
Proof.
  unfold clz_emulate.
  destruct (clz_emulate_from_spec w v w 0 ltac:(lia) ltac:(intros; lia)) as [[A B]|(i0 & A & B & C & D)];
  destruct (lzc_loop_spec w (bit v)) as [[A' B']|(i1 & A' & B' & C' & D')]; try lia.
  - rewrite A in B' by auto. discriminate.
  - rewrite A' in B by auto. discriminate.
  - assert (i0 = i1); [|lia].
    destruct (Nat.lt_trichotomy i0 i1) as [H|[H|H]]; auto.
    + rewrite C in B' by lia. discriminate.
    + rewrite C' in B by lia. discriminate.
Qed.

(** ** leading zero anticipation *)
Definition dig (x y : Z) (j : nat) : Z := Z.b2z (bit x j) + Z.b2z (bit y j).
Definition top (x y : Z) (j : nat) : Z := x / 2 ^ Z.of_nat j + y / 2 ^ Z.of_nat j.

Lemma div_pow_S x j : x / 2 ^ Z.of_nat j = 2 * (x / 2 ^ Z.of_nat (S j)) + Z.b2z (bit x j).
Proof.
  unfold bit. rewrite Z.testbit_spec' by lia.
  rewrite Nat2Z.inj_succ, Z.pow_succ_r by lia.
  rewrite (Z.mul_comm 2 (2 ^ Z.of_nat j)), <- Z.div_div by (try apply Z.pow_nonzero; lia).
  pose proof (Z.div_mod (x / 2 ^ Z.of_nat j) 2). lia.
Qed.
Lemma top_S x y j : top x y j = 2 * top x y (S j) + dig x y j.
Proof. unfold top, dig. rewrite (div_pow_S x j), (div_pow_S y j). lia. Qed.

Lemma top_rest x y j : exists r, x + y = top x y j * 2 ^ Z.of_nat j + r /\
  0 <= r <= 2 * (2 ^ Z.of_nat j - 1).
Proof.
  assert (0 < 2 ^ Z.of_nat j) by (apply Z.pow_pos_nonneg; lia).
  exists (x mod 2 ^ Z.of_nat j + y mod 2 ^ Z.of_nat j). unfold top.
  pose proof (Z.div_mod x (2 ^ Z.of_nat j) ltac:(lia)).
  pose proof (Z.div_mod y (2 ^ Z.of_nat j) ltac:(lia)).
  pose proof (Z.mod_pos_bound x (2 ^ Z.of_nat j) ltac:(lia)).
  pose proof (Z.mod_pos_bound y (2 ^ Z.of_nat j) ltac:(lia)). split; nia.
Qed.

Lemma top_start x y w : - 2 ^ Z.of_nat w <= x < 2 ^ Z.of_nat w -> - 2 ^ Z.of_nat w <= y < 2 ^ Z.of_nat w ->
  top x y w = - dig x y w.
Proof.
  assert (P : 0 < 2 ^ Z.of_nat w) by (apply Z.pow_pos_nonneg; lia).
  assert (H : forall z, - 2 ^ Z.of_nat w <= z < 2 ^ Z.of_nat w -> z / 2 ^ Z.of_nat w = - Z.b2z (bit z w)).
  { intros z Hz. unfold bit. rewrite Z.testbit_spec' by lia.
    assert (z / 2 ^ Z.of_nat w = 0 \/ z / 2 ^ Z.of_nat w = -1) as [E|E].
    { destruct (Z.leb_spec 0 z).
      - left. apply Z.div_small; lia.
      - right. symmetry. apply (Z.div_unique z (2 ^ Z.of_nat w) (-1) (z + 2 ^ Z.of_nat w)); lia. }
    - rewrite E. reflexivity.
    - rewrite E. reflexivity. }
  intros Hx Hy. unfold top, dig. rewrite (H x Hx), (H y Hy). lia.
Qed.

Lemma p_dig x y j : lza_p x y j = (dig x y j =? 1).
Proof. unfold lza_p, dig. destruct (bit x j), (bit y j); reflexivity. Qed.
Lemma k_dig x y j : lza_k x y j = (dig x y j =? 0).
Proof. unfold lza_k, dig. destruct (bit x j), (bit y j); reflexivity. Qed.
Lemma g_dig x y j : lza_g x y j = (dig x y j =? 2).
Proof. unfold lza_g, dig. destruct (bit x j), (bit y j); reflexivity. Qed.
Lemma dig_range x y j : 0 <= dig x y j <= 2.
Proof. unfold dig. destruct (bit x j), (bit y j); cbn; lia. Qed.

Lemma top_neg x y j : 0 <= x + y -> -2 < top x y j.
Proof.
  intros H. destruct (top_rest x y j) as (r & E & Hr).
  assert (0 < 2 ^ Z.of_nat j) by (apply Z.pow_pos_nonneg; lia). nia.
Qed.
Lemma top_nonneg x y j : x + y < 0 -> top x y j < 0.
Proof.
  intros H. destruct (top_rest x y j) as (r & E & Hr).
  assert (0 < 2 ^ Z.of_nat j) by (apply Z.pow_pos_nonneg; lia). nia.
Qed.

Lemma pow_nat_S j : 2 ^ Z.of_nat (S j) = 2 * 2 ^ Z.of_nat j.
Proof. rewrite Nat2Z.inj_succ, Z.pow_succ_r; lia. Qed.

Lemma lza_pos_state x y w m :
  - 2 ^ Z.of_nat w <= x < 2 ^ Z.of_nat w -> - 2 ^ Z.of_nat w <= y < 2 ^ Z.of_nat w -> 0 <= x + y ->
  (m <= w)%nat ->
  (forall i, (m <= i < w)%nat -> xorb (lza_p x y (i + 1)) (lza_k x y i) = true) ->
  (top x y m = -1 /\ dig x y m = 1) \/ (top x y m = 0 /\ dig x y m <> 1).
Proof.
  intros Hx Hy Hs Hm. remember (w - m)%nat as d. revert m Hm Heqd.
  induction d as [|d IH]; intros m Hm Hd Hall.
  - assert (m = w) by lia; subst m.
    pose proof (top_start x y w Hx Hy). pose proof (top_neg x y w Hs). pose proof (dig_range x y w). lia.
  - specialize (IH (S m) ltac:(lia) ltac:(lia)).
    specialize (Hall m ltac:(lia)) as Hm0.
    assert (Hall' : forall i, (S m <= i < w)%nat -> xorb (lza_p x y (i + 1)) (lza_k x y i) = true)
      by (intros; apply Hall; lia).
    specialize (IH Hall'). rewrite Nat.add_1_r, p_dig, k_dig in Hm0.
    pose proof (top_S x y m). pose proof (dig_range x y m). pose proof (top_neg x y m Hs). lia.
Qed.

Lemma lza_neg_state x y w m :
  - 2 ^ Z.of_nat w <= x < 2 ^ Z.of_nat w -> - 2 ^ Z.of_nat w <= y < 2 ^ Z.of_nat w -> x + y < 0 ->
  (m <= w)%nat ->
  (forall i, (m <= i < w)%nat -> xorb (lza_p x y (i + 1)) (lza_g x y i) = true) ->
  (top x y m = -1 /\ dig x y m = 1) \/ (top x y m = -2 /\ dig x y m <> 1).
Proof.
  intros Hx Hy Hs Hm. remember (w - m)%nat as d. revert m Hm Heqd.
  induction d as [|d IH]; intros m Hm Hd Hall.
  - assert (m = w) by lia; subst m.
    pose proof (top_start x y w Hx Hy). pose proof (top_nonneg x y w Hs). pose proof (dig_range x y w). lia.
  - specialize (IH (S m) ltac:(lia) ltac:(lia)).
    specialize (Hall m ltac:(lia)) as Hm0.
    assert (Hall' : forall i, (S m <= i < w)%nat -> xorb (lza_p x y (i + 1)) (lza_g x y i) = true)
      by (intros; apply Hall; lia).
    specialize (IH Hall'). rewrite Nat.add_1_r, p_dig, g_dig in Hm0.
    pose proof (top_S x y m). pose proof (dig_range x y m). pose proof (top_nonneg x y m Hs). lia.
Qed.

Lemma negb_false b : negb b = false -> b = true.
Proof. destruct b; auto. Qed.
Lemma negb_true b : negb b = true -> b = false.
Proof. destruct b; auto. Qed.

Lemma clz_window w v i0 n : 0 <= i0 <= w - 2 -> 2 ^ i0 <= v < 2 ^ (i0 + 2) -> is_clz w v n ->
  n = w - 2 - i0 \/ n = w - 1 - i0.
Proof.
  intros Hi Hv (A & B & C).
  assert (0 < 2 ^ i0) by (apply Z.pow_pos_nonneg; lia).
  destruct C as [C1 C2]; [lia|].
  assert (n <= w - 1 - i0).
  { destruct (Z.leb_spec n (w - 1 - i0)); auto. exfalso.
    pose proof (Z.pow_le_mono_r 2 (w - n) i0). destruct (Z.ltb_spec (w - n) 0); [|lia].
    lia. }
  assert (w - 2 - i0 <= n).
  { destruct (Z.leb_spec (w - 2 - i0) n); auto. exfalso.
    pose proof (Z.pow_le_mono_r 2 (i0 + 2) (w - 1 - n)). lia. }
  lia.
Qed.

Lemma lza_pos_ok w x y n :
  - 2 ^ Z.of_nat w <= x < 2 ^ Z.of_nat w -> - 2 ^ Z.of_nat w <= y < 2 ^ Z.of_nat w -> 0 <= x + y ->
  is_clz (Z.of_nat w + 1) (x + y) n ->
  Z.of_nat (lza_pos w x y) = n \/ Z.of_nat (lza_pos w x y) = n - 1.
Proof.
  intros Hx Hy Hs Hn. unfold lza_pos.
  destruct (lzc_loop_spec w (fun i => negb (xorb (lza_p x y (i + 1)) (lza_k x y i))))
    as [[A B]|(i0 & A & B & C & D)].
  - rewrite B. destruct (lza_pos_state x y w 0 Hx Hy Hs) as [[T _]|[T _]]; try lia.
    { intros; apply negb_false, A; lia. }
    + unfold top in T. cbn in T. rewrite !Z.div_1_r in T. lia.
    + unfold top in T. cbn in T. rewrite !Z.div_1_r in T. destruct Hn as (_ & Hn & _).
      rewrite Hn by lia. lia.
  - rewrite D.
    destruct (lza_pos_state x y w (S i0) Hx Hy Hs) as [[T Dg]|[T Dg]]; try lia.
    { intros; apply negb_false, C; lia. }
    + apply negb_true in B. rewrite Nat.add_1_r, p_dig, k_dig in B.
      pose proof (top_S x y i0). pose proof (top_neg x y i0 Hs). pose proof (dig_range x y i0). lia.
    + apply negb_true in B. rewrite Nat.add_1_r, p_dig, k_dig in B.
      pose proof (top_S x y i0). pose proof (dig_range x y i0).
      destruct (top_rest x y i0) as (r & E & Hr).
      assert (Hd : 1 <= top x y i0 <= 2) by lia.
      assert (P : 0 < 2 ^ Z.of_nat i0) by (apply Z.pow_pos_nonneg; lia).
      destruct (clz_window (Z.of_nat w + 1) (x + y) (Z.of_nat i0) n); auto; try lia.
      rewrite Z.pow_add_r by lia. change (2 ^ 2) with 4. nia.
Qed.

Lemma lza_neg_ok w x y n :
  - 2 ^ Z.of_nat w <= x < 2 ^ Z.of_nat w -> - 2 ^ Z.of_nat w <= y < 2 ^ Z.of_nat w -> x + y < 0 ->
  is_clz (Z.of_nat w + 1) (- (x + y) - 1) n ->
  Z.of_nat (lza_neg w x y) = n \/ Z.of_nat (lza_neg w x y) = n - 1.
Proof.
  intros Hx Hy Hs Hn. unfold lza_neg.
  destruct (lzc_loop_spec w (fun i => negb (xorb (lza_p x y (i + 1)) (lza_g x y i))))
    as [[A B]|(i0 & A & B & C & D)].
  - rewrite B. destruct (lza_neg_state x y w 0 Hx Hy Hs) as [[T _]|[T _]]; try lia.
    { intros; apply negb_false, A; lia. }
    + unfold top in T. cbn in T. rewrite !Z.div_1_r in T. destruct Hn as (_ & Hn & _).
      rewrite Hn by lia. lia.
    + unfold top in T. cbn in T. rewrite !Z.div_1_r in T.
      replace (- (x + y) - 1) with 1 in Hn by lia.
      assert (H1 : is_clz (Z.of_nat w + 1) 1 (Z.of_nat w)).
      { split; [lia|split; [lia|]]. intros _.
        replace (Z.of_nat w + 1 - 1 - Z.of_nat w) with 0 by lia.
        replace (Z.of_nat w + 1 - Z.of_nat w) with 1 by lia. cbn; lia. }
      rewrite (is_clz_unique _ _ _ _ Hn H1). lia.
  - rewrite D.
    destruct (lza_neg_state x y w (S i0) Hx Hy Hs) as [[T Dg]|[T Dg]]; try lia.
    { intros; apply negb_false, C; lia. }
    + apply negb_true in B. rewrite Nat.add_1_r, p_dig, g_dig in B.
      pose proof (top_S x y i0). pose proof (top_nonneg x y i0 Hs). pose proof (dig_range x y i0). lia.
    + apply negb_true in B. rewrite Nat.add_1_r, p_dig, g_dig in B.
      pose proof (top_S x y i0). pose proof (dig_range x y i0).
      destruct (top_rest x y i0) as (r & E & Hr).
      assert (Hd : -4 <= top x y i0 <= -3) by lia.
      assert (P : 0 < 2 ^ Z.of_nat i0) by (apply Z.pow_pos_nonneg; lia).
      destruct (clz_window (Z.of_nat w + 1) (- (x + y) - 1) (Z.of_nat i0) n); auto; try lia.
      rewrite Z.pow_add_r by lia. change (2 ^ 2) with 4. nia.
Qed.

(** ** compound adder *)
Definition zb (b : bool) : Z := if b then 1 else 0.
Lemma vec_val_app l1 l2 : vec_val (l1 ++ l2) = vec_val l1 + 2 ^ Z.of_nat (length l1) * vec_val l2.
Proof.
  induction l1 as [|b t IH]; cbn [app vec_val length].
  - change (Z.of_nat 0) with 0; rewrite Z.pow_0_r; lia.
  - rewrite IH, pow_nat_S. ring.
Qed.
Lemma vec_val_bound l : 0 <= vec_val l < 2 ^ Z.of_nat (length l).
Proof.
  induction l as [|b t IH]; cbn [vec_val length]; [cbn; lia|].
  rewrite pow_nat_S. destruct b; lia.
Qed.
Lemma vec_of_val n : forall v, vec_val (vec_of n v) = v mod 2 ^ Z.of_nat n.
Proof.
  induction n as [|n IH]; intros v; cbn [vec_of vec_val].
  - cbn. rewrite Z.mod_1_r; auto.
  - rewrite IH, pow_nat_S.
    assert (0 < 2 ^ Z.of_nat n) by (apply Z.pow_pos_nonneg; lia).
    rewrite Z.rem_mul_r by lia. rewrite Zmod_odd. destruct (Z.odd v); lia.
Qed.
Lemma vec_of_length n : forall v, length (vec_of n v) = n.
Proof. induction n; intros; cbn [vec_of length]; auto. Qed.

Lemma all_propagate x : forall y, length x = length y ->
  (forallb (fun b => b) (map (fun ab => xorb (fst ab) (snd ab)) (combine x y)) = true
   <-> vec_val x + vec_val y = 2 ^ Z.of_nat (length x) - 1).
Proof.
  induction x as [|b t IH]; intros [|c u] Hl; cbn in Hl; try discriminate.
  - cbn. split; auto.
  - injection Hl as Hl. specialize (IH u Hl).
    cbn [combine map forallb fst snd vec_val length]. rewrite pow_nat_S.
    rewrite andb_true_iff, IH. destruct b, c; cbn [xorb]; split; try lia; intros [? ?]; try lia; discriminate.
Qed.

Definition add_ok (x y : list bool) (r : list bool * list bool * bool * bool) : Prop :=
  let '(a, ap1, g, p) := r in
  let n := length x in
  length a = n /\ length ap1 = n /\
  vec_val a + 2 ^ Z.of_nat n * zb g = vec_val x + vec_val y /\
  vec_val ap1 + 2 ^ Z.of_nat n * zb (g || p) = vec_val x + vec_val y + 1 /\
  (p = true <-> vec_val x + vec_val y = 2 ^ Z.of_nat n - 1).

Lemma rec_add_ok fuel ll : (1 <= ll)%nat -> forall x y,
  length x = length y -> (length x < fuel)%nat ->
  exists r, rec_add fuel ll x y = Some r /\ add_ok x y r.
Proof.
  intros Hll. induction fuel as [|f IH]; intros x y Hlen Hf; [lia|]. cbn [rec_add].
  destruct (Nat.leb_spec (length x) ll).
  - destruct (Nat.eqb_spec (length x) 1) as [E|E].
    + destruct x as [|b [|? ?]]; try discriminate. destruct y as [|c [|? ?]]; try discriminate.
      eexists; split; [reflexivity|]. cbn [hd add_ok length].
      destruct b, c; cbn; repeat split; try lia; try discriminate; auto.
    + eexists; split; [reflexivity|]. cbn [add_ok].
      pose proof (vec_val_bound x) as Bx. pose proof (vec_val_bound y) as By. rewrite <- Hlen in By.
      pose proof (all_propagate x y Hlen) as AP.
      set (P := 2 ^ Z.of_nat (length x)) in *.
      assert (HP : 0 < P) by (apply Z.pow_pos_nonneg; lia).
      assert (TB : zb (Z.testbit (vec_val x + vec_val y) (Z.of_nat (length x))) = (vec_val x + vec_val y) / P).
      { change zb with Z.b2z. rewrite Z.testbit_spec' by lia. fold P. apply Z.mod_small.
        split; [apply Z.div_pos; lia|]. apply Z.div_lt_upper_bound; lia. }
      rewrite !vec_of_val, !vec_of_length. fold P.
      split; auto. split; auto. split; [|split; [|exact AP]].
      * rewrite TB. pose proof (Z.div_mod (vec_val x + vec_val y) P). lia.
      * set (s := vec_val x + vec_val y) in *.
        destruct (forallb _ _) eqn:Ep.
        -- destruct AP as [AP _]. specialize (AP eq_refl). rewrite orb_true_r. cbn [zb].
           rewrite AP. replace (P - 1 + 1) with P by lia. rewrite Z.mod_same; lia.
        -- rewrite orb_false_r, TB.
           assert (Hne : s <> P - 1) by (intros E2; apply AP in E2; discriminate).
           pose proof (Z.div_mod s P ltac:(lia)) as Dm. pose proof (Z.mod_pos_bound s P HP).
           assert (Q : s / P = 0 \/ s / P = 1).
           { assert (0 <= s / P) by (apply Z.div_pos; lia).
             assert (s / P < 2) by (apply Z.div_lt_upper_bound; lia). lia. }
           assert (s mod P <> P - 1) by (destruct Q as [Q|Q]; rewrite Q in Dm; lia).
           rewrite <- (Z.mod_unique (s + 1) P (s / P) (s mod P + 1)); lia.
  - set (h := Nat.div (length x) 2).
    assert (Hh : (1 <= h < length x)%nat).
    { unfold h. split; [apply Nat.div_le_lower_bound; lia|apply Nat.div_lt; lia]. }
    assert (L1 : length (firstn h x) = h) by (rewrite firstn_length; lia).
    assert (L2 : length (firstn h y) = h) by (rewrite firstn_length; lia).
    assert (L3 : length (skipn h x) = (length x - h)%nat) by (apply skipn_length).
    assert (L4 : length (skipn h y) = (length x - h)%nat) by (rewrite skipn_length; lia).
    destruct (IH (firstn h x) (firstn h y)) as ([[[a0 ap0] g0] p0] & E0 & (A0 & B0 & C0 & D0 & P0)); try lia.
    destruct (IH (skipn h x) (skipn h y)) as ([[[a1 ap1] g1] p1] & E1 & (A1 & B1 & C1 & D1 & P1)); try lia.
    rewrite E0, E1. eexists; split; [reflexivity|]. cbn [add_ok].
    rewrite L1 in *. rewrite L3 in *.
    assert (VX : vec_val x = vec_val (firstn h x) + 2 ^ Z.of_nat h * vec_val (skipn h x)).
    { rewrite <- (firstn_skipn h x) at 1. rewrite vec_val_app, L1. reflexivity. }
    assert (VY : vec_val y = vec_val (firstn h y) + 2 ^ Z.of_nat h * vec_val (skipn h y)).
    { rewrite <- (firstn_skipn h y) at 1. rewrite vec_val_app, L2. reflexivity. }
    pose proof (vec_val_bound a0) as Ba0. rewrite A0 in Ba0.
    pose proof (vec_val_bound ap0) as Bap0. rewrite B0 in Bap0.
    pose proof (vec_val_bound a1) as Ba1. rewrite A1 in Ba1.
    pose proof (vec_val_bound ap1) as Bap1. rewrite B1 in Bap1.
    rewrite !app_length, !vec_val_app, A0, B0.
    rewrite VX, VY. clear VX VY E0 E1.
    replace (2 ^ Z.of_nat (length x)) with (2 ^ Z.of_nat h * 2 ^ Z.of_nat (length x - h)).
    2:{ rewrite <- Z.pow_add_r by lia. f_equal; lia. }
    set (H0 := 2 ^ Z.of_nat h) in *. set (K := 2 ^ Z.of_nat (length x - h)) in *.
    set (X0 := vec_val (firstn h x)) in *. set (Y0 := vec_val (firstn h y)) in *.
    set (X1 := vec_val (skipn h x)) in *. set (Y1 := vec_val (skipn h y)) in *.
    assert (HH0 : 0 < H0) by (apply Z.pow_pos_nonneg; lia).
    assert (HK : 0 < K) by (apply Z.pow_pos_nonneg; lia).
    assert (Hg0 : g0 = true -> p0 = false).
    { intros ->. destruct p0; auto. destruct P0 as [P0 _]. specialize (P0 eq_refl). cbn [zb] in *. lia. }
    assert (Hg1 : g1 = true -> p1 = false).
    { intros ->. destruct p1; auto. destruct P1 as [P1 _]. specialize (P1 eq_refl). cbn [zb] in *. lia. }
    split; [destruct g0; lia|]. split; [destruct (p0 || g0)%bool; lia|].
    split; [|split].
    + destruct g0, g1, p1; cbn [zb andb orb] in *; try (specialize (Hg1 eq_refl); discriminate); nia.
    + destruct g0, p0; try (specialize (Hg0 eq_refl); discriminate);
      destruct g1, p1; try (specialize (Hg1 eq_refl); discriminate); cbn [zb andb orb] in *; nia.
    + rewrite andb_true_iff, P0, P1. split; [nia|].
      intros E. assert (X0 + Y0 - (H0 - 1) = H0 * (K - 1 - (X1 + Y1))) by nia.
      assert (Bx0 : 0 <= X0 + Y0 <= 2 * H0 - 2).
      { pose proof (vec_val_bound (firstn h x)) as BB1. pose proof (vec_val_bound (firstn h y)) as BB2.
        rewrite L1 in BB1. rewrite L2 in BB2. fold H0 in BB1, BB2. fold X0 in BB1. fold Y0 in BB2. lia. }
      assert (K - 1 - (X1 + Y1) = 0) by nia. split; nia.
Qed.

(** ** divider *)
Lemma iter_end rs wd n : forall q r nd delta, delta < 0 -> 0 <= r < 2 ^ wd ->
  fst (fst (fst (iter n (div_step rs wd) (q, r, nd, delta)))) = q.
Proof.
  induction n as [|n IH]; intros q r nd delta Hd Hr; [reflexivity|].
  cbn [iter div_step]. assert ((delta <? 0) = true) as -> by lia.
  cbn [negb]. rewrite andb_false_r. rewrite IH; auto; try lia.
  rewrite Z.sub_0_r, Z.mod_small; auto.
Qed.

Lemma div_loop_ok rs wd D V : 0 < D -> 0 <= V < 2 ^ wd -> 0 <= V < 2 ^ rs ->
  forall n q r delta, 0 <= delta -> delta < Z.of_nat n ->
  0 <= q -> 0 <= r < 2 * (D * 2 ^ delta) -> V = q * (2 * (D * 2 ^ delta)) + r ->
  fst (fst (fst (iter n (div_step rs wd) (q, r, D * 2 ^ delta, delta)))) = V / D.
Proof.
  intros HD HV1 HV2. induction n as [|n IH]; intros q r delta Hd Hn Hq Hr HV; [lia|].
  cbn [iter div_step]. assert ((delta <? 0) = false) as -> by lia. cbn [negb].
  rewrite andb_true_r, Z.shiftl_mul_pow2, Z.pow_1_r by lia.
  set (ND := D * 2 ^ delta) in *.
  assert (HP : 0 < 2 ^ delta) by (apply Z.pow_pos_nonneg; lia).
  assert (HND : 0 < ND) by (unfold ND; nia).
  set (dg := if ND <=? r then 1 else 0).
  assert (Er : r - (if ND <=? r then ND else 0) = r - dg * ND) by (unfold dg; destruct (ND <=? r); lia).
  rewrite Er.
  assert (Hr' : 0 <= r - dg * ND < ND) by (unfold dg; destruct (Z.leb_spec ND r); lia).
  assert (HV' : V = (2 * q + dg) * ND + (r - dg * ND)) by (rewrite HV; ring).
  assert (Hdg : 0 <= dg <= 1) by (unfold dg; destruct (ND <=? r); lia).
  assert (HqV : 0 <= 2 * q + dg <= V) by nia.
  rewrite (Z.mod_small (q * 2 + dg)) by lia.
  rewrite (Z.mod_small (r - dg * ND)) by nia.
  destruct (Z.eq_dec delta 0) as [E|E].
  - rewrite iter_end; [|lia|].
    2:{ assert (r - dg * ND <= V) by nia. lia. }
    unfold ND in *. rewrite E, Z.pow_0_r, Z.mul_1_r in *.
    apply (Z.div_unique V D (q * 2 + dg) (r - dg * D)); lia.
  - replace (Z.shiftr ND 1) with (D * 2 ^ (delta - 1)).
    2:{ rewrite Z.shiftr_div_pow2, Z.pow_1_r by lia. unfold ND.
        replace delta with (delta - 1 + 1) at 2 by lia. rewrite Z.pow_add_r, Z.pow_1_r by lia.
        rewrite Z.mul_assoc, Z.div_mul; lia. }
    assert (E2 : 2 * (D * 2 ^ (delta - 1)) = ND).
    { unfold ND. replace delta with (delta - 1 + 1) at 2 by lia. rewrite Z.pow_add_r, Z.pow_1_r by lia. ring. }
    apply IH; try lia. rewrite E2. lia.
Qed.

Lemma int_div_ok w rs bz V D : 0 <= V < 2 ^ Z.of_nat w -> 0 < D < 2 ^ Z.of_nat w -> (w <= rs)%nat ->
  int_div w w rs bz V D = V / D.
Proof.
  intros HV HD Hrs. unfold int_div.
  destruct (lzc_loop_clz w V HV) as (A1 & B1 & C1).
  destruct (lzc_loop_clz w D ltac:(lia)) as (A2 & B2 & C2).
  set (lv := Z.of_nat (lzc_loop w (bit V))) in *. set (ld := Z.of_nat (lzc_loop w (bit D))) in *.
  destruct C2 as [P2 Q2]; [lia|].
  set (W := Z.of_nat w) in *.
  assert (HVr : V < 2 ^ Z.of_nat rs).
  { eapply Z.lt_le_trans; [apply HV|]. apply Z.pow_le_mono_r; lia. }
  assert (Dz : (D =? 0) = false) by lia.
  assert (HldW : ld <= W - 1).
  { destruct (Z.eq_dec ld W) as [E|E]; [|lia]. rewrite E in Q2.
    replace (W - W) with 0 in Q2 by lia. change (2 ^ 0) with 1 in Q2. lia. }
  match goal with |- context [iter ?n ?f ?st] => set (t := iter n f st) end.
  assert (Et : fst (fst (fst t)) = V / D); [unfold t|destruct t as [[[q ?] ?] ?]; cbn in Et; rewrite Dz; exact Et].
  destruct (Z.ltb_spec (ld - lv) 0) as [Hneg|Hpos].
  - rewrite iter_end by (try fold W; lia).
    symmetry. apply Z.div_small. destruct (Z.eq_dec V 0) as [->|Hnz]; [lia|].
    destruct (C1 Hnz) as [P1 Q1].
    assert (2 ^ (W - lv) <= 2 ^ (W - 1 - ld)) by (apply Z.pow_le_mono_r; lia). lia.
  - assert (Hnz : V <> 0).
    { intros E. specialize (B1 E). lia. }
    destruct (C1 Hnz) as [P1 Q1].
    assert (HlvW : lv <= W - 1) by lia.
    replace (Z.shiftl D (ld - lv) mod 2 ^ W) with (D * 2 ^ (ld - lv)).
    2:{ rewrite Z.shiftl_mul_pow2 by lia. symmetry; apply Z.mod_small. split; [nia|].
        apply Z.lt_le_trans with (2 ^ (W - ld) * 2 ^ (ld - lv)).
        - apply Z.mul_lt_mono_pos_r; [apply Z.pow_pos_nonneg; lia|lia].
        - rewrite <- Z.pow_add_r by lia. apply Z.pow_le_mono_r; lia. }
    apply (div_loop_ok _ _ D V); try lia.
    split; [lia|].
    apply Z.lt_le_trans with (2 ^ (W - lv)); [lia|].
    replace (W - lv) with (1 + ((W - 1 - ld) + (ld - lv))) by lia.
    rewrite Z.pow_add_r, Z.pow_1_r, Z.pow_add_r by lia.
    apply Z.mul_le_mono_nonneg_l; [lia|]. apply Z.mul_le_mono_nonneg_r; [|lia].
    apply Z.pow_nonneg; lia.
Qed.

(** ** 32-bit software count *)
Lemma land_cases_65535 m : 0 <= m < 65536 -> Z.land 65535 m = m.
Proof.
  intros H. rewrite Z.land_comm. change 65535 with (Z.ones 16). rewrite Z.land_ones by lia.
  apply Z.mod_small; auto.
Qed.

Lemma shr16_high z : 1 <= z <= 65536 -> Z.shiftr (w32 (- z)) 16 = 65535.
Proof.
  intros H. unfold w32. rewrite Z.shiftr_div_pow2 by lia.
  replace ((- z) mod 2 ^ 32) with (2 ^ 32 - z).
  2:{ symmetry. rewrite <- (Z.mod_unique (- z) (2 ^ 32) (-1) (2 ^ 32 - z)); lia. }
  symmetry. apply (Z.div_unique (2 ^ 32 - z) (2 ^ 16) 65535 (65536 - z)); lia.
Qed.
Lemma shr16_low z : 0 <= z < 65536 -> Z.shiftr (w32 z) 16 = 0.
Proof.
  intros H. unfold w32. rewrite Z.shiftr_div_pow2 by lia. rewrite Z.mod_small by lia.
  apply Z.div_small; lia.
Qed.

(** a normalisation step: if x < 2^(16-m) then shift left by m *)
Lemma norm_step x m : 0 <= x < 65536 -> 0 < m < 16 -> 
  let mm := Z.land (Z.shiftr (w32 (x - 2 ^ (16 - m))) 16) m in
  (x < 2 ^ (16 - m) /\ mm = m /\ w32 (Z.shiftl x mm) = x * 2 ^ m) \/
  (2 ^ (16 - m) <= x /\ mm = 0 /\ w32 (Z.shiftl x mm) = x).
Proof.
  intros Hx Hm mm.
  assert (2 ^ (16 - m) <= 2 ^ 16) by (apply Z.pow_le_mono_r; lia).
  change (2 ^ 16) with 65536 in H.
  assert (0 < 2 ^ (16 - m)) by (apply Z.pow_pos_nonneg; lia).
  destruct (Z.ltb_spec x (2 ^ (16 - m))) as [H1|H1]; [left|right]; split; auto.
  - assert (E : mm = m).
    { unfold mm. replace (x - 2 ^ (16 - m)) with (- (2 ^ (16 - m) - x)) by lia.
      rewrite shr16_high by lia. apply land_cases_65535. lia. }
    split; auto. rewrite E. unfold w32. rewrite Z.shiftl_mul_pow2 by lia. apply Z.mod_small.
    split; [apply Z.mul_nonneg_nonneg; [lia|apply Z.pow_nonneg; lia]|].
    apply Z.lt_le_trans with (2 ^ (16 - m) * 2 ^ m).
    + apply Z.mul_lt_mono_pos_r; [apply Z.pow_pos_nonneg; lia|lia].
    + rewrite <- Z.pow_add_r by lia. apply Z.pow_le_mono_r; lia.
  - assert (E : mm = 0) by (unfold mm; rewrite shr16_low by lia; apply Z.land_0_l).
    split; auto. rewrite E, Z.shiftl_0_r. unfold w32. apply Z.mod_small; lia.
Qed.

Lemma clz32_ok x : 0 <= x < 2 ^ 32 -> is_clz 32 x (clz32_seq x).
Proof.
  intros Hx. unfold clz32_seq.
  set (m0 := Z.land (w32 (Z.shiftr (s32 (w32 (- Z.shiftr x 16))) 16)) 16).
  assert (H0 : (x < 65536 /\ m0 = 0 /\ Z.shiftr x m0 = x) \/
               (65536 <= x /\ m0 = 16 /\ Z.shiftr x m0 = x / 65536)).
  { assert (Esh : Z.shiftr x 16 = x / 65536) by (rewrite Z.shiftr_div_pow2 by lia; reflexivity).
    destruct (Z.ltb_spec x 65536) as [H|H]; [left|right]; split; auto.
    - assert (Z.shiftr x 16 = 0) by (rewrite Esh; apply Z.div_small; lia).
      unfold m0. rewrite H0. split; [reflexivity|]. apply Z.shiftr_0_r.
    - assert (Hd : 1 <= x / 65536 <= 65535).
      { split; [apply Z.div_le_lower_bound; lia|].
        enough (x / 65536 < 65536) by lia. apply Z.div_lt_upper_bound; lia. }
      assert (m0 = 16) as ->; [|split; auto].
      unfold m0. rewrite Esh. set (d := x / 65536) in *.
      assert (E1 : w32 (- d) = 2 ^ 32 - d).
      { unfold w32. symmetry. rewrite <- (Z.mod_unique (- d) (2 ^ 32) (-1) (2 ^ 32 - d)); lia. }
      rewrite E1. unfold s32. destruct (Z.ltb_spec (2 ^ 32 - d) (2 ^ 31)); [lia|].
      replace (2 ^ 32 - d - 2 ^ 32) with (- d) by lia.
      rewrite Z.shiftr_div_pow2 by lia.
      assert (- d / 2 ^ 16 = -1) as ->; [|reflexivity].
      symmetry. apply (Z.div_unique (- d) (2 ^ 16) (-1) (65536 - d)); lia. }
  cbv zeta. fold m0. set (x2 := Z.shiftr x m0) in *.
  assert (Hx2 : 0 <= x2 < 65536).
  { destruct H0 as [(? & ? & ->)|(? & ? & ->)]; [lia|].
    split; [apply Z.div_pos; lia|apply Z.div_lt_upper_bound; lia]. }
  pose proof (norm_step x2 8 Hx2 ltac:(lia)) as S1. change (2 ^ (16 - 8)) with 256 in S1. cbv zeta in S1.
  set (m1 := Z.land (Z.shiftr (w32 (x2 - 256)) 16) 8) in *. set (x3 := w32 (Z.shiftl x2 m1)) in *.
  change (2 ^ 8) with 256 in S1.
  assert (Hx3 : 0 <= x3 < 65536) by lia.
  pose proof (norm_step x3 4 Hx3 ltac:(lia)) as S2. change (2 ^ (16 - 4)) with 4096 in S2. cbv zeta in S2.
  set (m2 := Z.land (Z.shiftr (w32 (x3 - 4096)) 16) 4) in *. set (x4 := w32 (Z.shiftl x3 m2)) in *.
  change (2 ^ 4) with 16 in S2.
  assert (Hx4 : 0 <= x4 < 65536) by lia.
  pose proof (norm_step x4 2 Hx4 ltac:(lia)) as S3. change (2 ^ (16 - 2)) with 16384 in S3. cbv zeta in S3.
  set (m3 := Z.land (Z.shiftr (w32 (x4 - 16384)) 16) 2) in *. set (x5 := w32 (Z.shiftl x4 m3)) in *.
  change (2 ^ 2) with 4 in S3.
  assert (Hx5 : 0 <= x5 < 65536) by lia.
  set (y := Z.shiftr x5 14).
  assert (Hy : y = x5 / 16384) by (unfold y; rewrite Z.shiftr_div_pow2 by lia; reflexivity).
  set (m4 := Z.land y (w32 (Z.lnot (Z.shiftr y 1)))).
  assert (S4 : (x5 < 16384 /\ m4 = 0) \/ (16384 <= x5 < 32768 /\ m4 = 1) \/ (32768 <= x5 /\ m4 = 2)).
  { assert (Hd : 16384 * (x5 / 16384) <= x5 < 16384 * (x5 / 16384) + 16384).
    { pose proof (Z.div_mod x5 16384 ltac:(lia)). pose proof (Z.mod_pos_bound x5 16384 ltac:(lia)). lia. }
    rewrite <- Hy in Hd.
    assert (y = 0 \/ y = 1 \/ y = 2 \/ y = 3) as [E|[E|[E|E]]] by lia; unfold m4; rewrite E in *;
      [left|right; left|right; right|right; right]; (split; [lia|reflexivity]). }
  clearbody m0 m1 m2 m3 m4 x2 x3 x4 x5 y.
  assert (Hdm : 65536 * (x / 65536) <= x < 65536 * (x / 65536) + 65536).
  { pose proof (Z.div_mod x 65536 ltac:(lia)). pose proof (Z.mod_pos_bound x 65536 ltac:(lia)). lia. }
  clear y Hy.
  assert (R : forall n, 16 - m0 + m1 + m2 + m3 + 2 - m4 = n -> is_clz 32 x n -> is_clz 32 x (16 - m0 + m1 + m2 + m3 + 2 - m4)).
  { intros n -> ?; auto. }
  destruct H0 as [(I0 & E0 & F0)|(I0 & E0 & F0)];
  destruct S1 as [(I1 & E1 & F1)|(I1 & E1 & F1)];
  destruct S2 as [(I2 & E2 & F2)|(I2 & E2 & F2)];
  destruct S3 as [(I3 & E3 & F3)|(I3 & E3 & F3)];
  destruct S4 as [(I4 & E4)|[(I4 & E4)|(I4 & E4)]];
  rewrite E0, E1, E2, E3, E4;
  (split; [lia|split; [intros; subst x; cbn in *; lia|intros; cbn; lia]]).
Qed.
