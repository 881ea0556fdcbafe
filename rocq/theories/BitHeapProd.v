(** Partial products, Booth recoding, additions, row extraction. *)
From Coq Require Import ZArith List Bool Lia.
From Verif Require Import BitHeapModel BitHeapSpec BitHeapProofs.
Import ListNotations.
Open Scope Z_scope.

Fixpoint sumf (f : nat -> Z) (s n : nat) : Z :=
  match n with O => 0 | S n' => f s + sumf f (S s) n' end.

Lemma sumf_ext f g s n : (forall i, (s <= i < s + n)%nat -> f i = g i) -> sumf f s n = sumf g s n.
Proof.
  revert s; induction n; simpl; intros s H; auto.
  rewrite (H s) by lia. rewrite (IHn (S s)); auto. intros; apply H; lia.
Qed.
Lemma sumf_last f s n : sumf f s (S n) = sumf f s n + f (s + n)%nat.
Proof.
  revert s; induction n; intros s; cbn [sumf].
  - rewrite Nat.add_0_r; lia.
  - cbn [sumf] in IHn. rewrite IHn. replace (S s + n)%nat with (s + S n)%nat by lia. lia.
Qed.
Lemma sumf_scale f s n c : sumf (fun i => f i * c) s n = sumf f s n * c.
Proof. revert s; induction n; simpl; intros; [lia|]. rewrite IHn; ring. Qed.

Lemma fold_seq {A} (P : A -> Prop) (m : A -> Z) (step : A -> nat -> A) (f : nat -> Z) s n :
  (forall x i, (s <= i < s + n)%nat -> P x -> P (step x i) /\ m (step x i) = m x + f i) ->
  forall x, P x -> P (fold_left step (seq s n) x) /\
                   m (fold_left step (seq s n) x) = m x + sumf f s n.
Proof.
  revert s; induction n; simpl; intros s H x Hx; [split; auto; lia|].
  destruct (H x s) as [H1 H2]; auto; [lia|].
  destruct (IHn (S s)) with (x := step x s) as [H3 H4]; auto.
  - intros; apply H; auto; lia.
  - split; auto. rewrite H4, H2; ring.
Qed.

Lemma low_code_sumf env bit n :
  low_code env bit n = sumf (fun i => b2z (beval env (bit i)) * 2 ^ Z.of_nat i) 0 n.
Proof.
  induction n as [|n IH]; [reflexivity|].
  rewrite sumf_last. cbn [low_code]. rewrite IH, Nat.add_0_l; reflexivity.
Qed.

(** signed weight of bit i of an operand *)
Definition sgn_at (a : operand) (i : nat) : Z :=
  if op_signed a && Nat.eqb i (op_size a - 1) then -1 else 1.

Lemma pow_nat_S n : 2 ^ Z.of_nat (S n) = 2 * 2 ^ Z.of_nat n.
Proof. rewrite Nat2Z.inj_succ, Z.pow_succ_r; lia. Qed.

Lemma op_int_sumf env a : (0 < op_size a)%nat ->
  op_int env a = sumf (fun i => sgn_at a i * b2z (beval env (op_bit a i)) * 2 ^ Z.of_nat i) 0 (op_size a).
Proof.
  intros H. unfold op_int, sgn_at. destruct (op_size a) as [|n]; [lia|].
  rewrite sumf_last, Nat.add_0_l. replace (S n - 1)%nat with n by lia.
  cbn [low_code]. rewrite low_code_sumf.
  rewrite (sumf_ext (fun i => (if op_signed a && Nat.eqb i n then -1 else 1) * _ * _)
             (fun i => b2z (beval env (op_bit a i)) * 2 ^ Z.of_nat i)).
  2:{ intros i Hi. destruct (Nat.eqb_spec i n); [lia|]. rewrite andb_false_r; ring. }
  rewrite Nat.eqb_refl, andb_true_r, pow_nat_S.
  destruct (op_signed a), (beval env (op_bit a n)); simpl b2z; cbn [andb]; ring.
Qed.

(** pairs of heaps *)
Definition hp_ok (base : Z) (hp : heap * heap) : Prop :=
  wf_heap (fst hp) /\ wf_heap (snd hp) /\ above base (fst hp) /\ above base (snd hp).
Definition hp_val env base (hp : heap * heap) : Z :=
  heap_val env base (fst hp) - heap_val env base (snd hp).

Lemma pow_split x y : 0 <= x -> 0 <= y -> 2 ^ (x + y) = 2 ^ x * 2 ^ y.
Proof. intros; apply Z.pow_add_r; auto. Qed.

Lemma b2z_sel env a b : b2z (beval env (BSel a b (BCst false))) = b2z (beval env a) * b2z (beval env b).
Proof. simpl; destruct (beval env a), (beval env b); reflexivity. Qed.

Lemma merge_pp_bit_ok env base a b j k hp :
  base <= - op_frac a -> hp_ok base hp ->
  hp_ok base (merge_pp_bit a b j k hp) /\
  hp_val env base (merge_pp_bit a b j k hp)
  = hp_val env base hp
    + (sgn_at a j * b2z (beval env (op_bit a j)) * 2 ^ Z.of_nat j)
      * (sgn_at b k * b2z (beval env (op_bit b k)) * 2 ^ Z.of_nat k)
      * 2 ^ (- op_frac a - base).
Proof.
  intros Hb (W1 & W2 & A1 & A2). destruct hp as [p n]; unfold merge_pp_bit, hp_ok, hp_val; cbn [fst snd] in *.
  set (w := Z.of_nat j - op_frac a + Z.of_nat k).
  assert (base <= w) by (unfold w; lia).
  assert (E : 2 ^ (w - base) = 2 ^ Z.of_nat j * 2 ^ Z.of_nat k * 2 ^ (- op_frac a - base)).
  { unfold w. rewrite <- !Z.pow_add_r by lia. f_equal; lia. }
  unfold sgn_at.
  destruct (op_signed a && Nat.eqb j (op_size a - 1)), (op_signed b && Nat.eqb k (op_size b - 1));
    cbn [xorb fst snd];
    (split; [repeat split; try apply insert_wf; try apply insert_above; auto; try apply W1; try apply W2|]);
    rewrite insert_val, b2z_sel, E; ring.
Qed.

Lemma merge_product_plain_ok env base a b hp :
  (0 < op_size a)%nat -> (0 < op_size b)%nat ->
  base <= - op_frac a -> hp_ok base hp ->
  hp_ok base (merge_product_plain a b hp) /\
  hp_val env base (merge_product_plain a b hp)
  = hp_val env base hp + op_int env a * op_int env b * 2 ^ (- op_frac a - base).
Proof.
  intros Ha Hb Hf Hok. unfold merge_product_plain.
  destruct (fold_seq (hp_ok base) (hp_val env base)
    (fun hp j => fold_left (fun hp k => merge_pp_bit a b j k hp) (seq 0 (op_size b)) hp)
    (fun j => (sgn_at a j * b2z (beval env (op_bit a j)) * 2 ^ Z.of_nat j)
              * (op_int env b * 2 ^ (- op_frac a - base)))
    0 (op_size a)) with (x := hp) as [H1 H2]; auto.
  - intros x j _ Hx.
    destruct (fold_seq (hp_ok base) (hp_val env base) (fun hp k => merge_pp_bit a b j k hp)
      (fun k => (sgn_at b k * b2z (beval env (op_bit b k)) * 2 ^ Z.of_nat k)
         * (sgn_at a j * b2z (beval env (op_bit a j)) * 2 ^ Z.of_nat j * 2 ^ (- op_frac a - base)))
      0 (op_size b)) with (x := x) as [H1 H2]; auto.
    + intros y k _ Hy. destruct (merge_pp_bit_ok env base a b j k y) as [H1 H2]; auto.
      split; auto. rewrite H2; ring.
    + split; auto. rewrite H2, sumf_scale, <- op_int_sumf; auto; ring.
  - split; auto. rewrite H2, sumf_scale, <- op_int_sumf; auto; ring.
Qed.

Lemma merge_addition_ok env base c hp :
  (0 < op_size c)%nat -> base <= - op_frac c -> hp_ok base hp ->
  hp_ok base (merge_addition c hp) /\
  hp_val env base (merge_addition c hp)
  = hp_val env base hp + op_int env c * 2 ^ (- op_frac c - base).
Proof.
  intros Hc Hf (W1 & W2 & A1 & A2). destruct hp as [p n]. unfold merge_addition.
  cbn [fst snd] in *.
  set (wm := Z.of_nat (op_size c) - 1 - op_frac c).
  assert (Hwm : base <= wm) by (unfold wm; lia).
  set (msb := op_bit c (op_size c - 1)).
  assert (Ewm : 2 ^ (wm - base) = 2 ^ Z.of_nat (op_size c - 1) * 2 ^ (- op_frac c - base)).
  { unfold wm. rewrite <- Z.pow_add_r by lia. f_equal; lia. }
  destruct (if op_signed c then (p, insert_bit wm msb n) else (insert_bit wm msb p, n)) as [p1 n1] eqn:E1.
  assert (H1 : hp_ok base (p1, n1) /\ hp_val env base (p1, n1)
     = hp_val env base (p, n) + (if op_signed c then -1 else 1) * b2z (beval env msb)
        * 2 ^ Z.of_nat (op_size c - 1) * 2 ^ (- op_frac c - base)).
  { unfold hp_val, hp_ok. destruct (op_signed c); injection E1 as <- <-; cbn [fst snd];
    (split; [repeat split; try apply insert_wf; try apply insert_above; auto; try apply W1; try apply W2|]);
    rewrite insert_val, Ewm; ring. }
  destruct H1 as [O1 V1].
  destruct (fold_seq (fun q => hp_ok base (q, n1)) (fun q => hp_val env base (q, n1))
    (fun pos i => insert_bit (Z.of_nat i - op_frac c) (op_bit c i) pos)
    (fun i => (b2z (beval env (op_bit c i)) * 2 ^ Z.of_nat i) * 2 ^ (- op_frac c - base))
    0 (op_size c - 1)) with (x := p1) as [H2 H3]; auto.
  - intros x i _ (Wx & Wn & Ax & An); unfold hp_ok, hp_val in *; cbn [fst snd] in *.
    split; [repeat split; try apply insert_wf; try apply insert_above; auto; try apply Wx; try apply Wn; lia|].
    rewrite insert_val.
    replace (2 ^ (Z.of_nat i - op_frac c - base)) with (2 ^ Z.of_nat i * 2 ^ (- op_frac c - base)); [ring|].
    rewrite <- Z.pow_add_r by lia. f_equal; lia.
  - split; auto. rewrite H3, V1, sumf_scale, <- low_code_sumf.
    unfold op_int, msb. clear -Hc.
    destruct (op_size c) as [|k]; [lia|]. replace (S k - 1)%nat with k by lia.
    cbn [low_code]. rewrite pow_nat_S.
    destruct (op_signed c), (beval env (op_bit c k)); cbn [andb b2z]; ring.
Qed.

(** Booth *)
Definition digit_val env (d : bexp * bexp * bexp) : Z :=
  let '(d2, d1, d0) := d in
  -2 * b2z (beval env d2) + b2z (beval env d1) + b2z (beval env d0).

Definition insert_pos_ok base (p : heap) := wf_heap p /\ above base p.

Lemma ins_ok base w b p : base <= w -> insert_pos_ok base p -> insert_pos_ok base (insert_bit w b p).
Proof. intros H [? ?]; split; [apply insert_wf|apply insert_above]; auto. Qed.

Lemma pp_bits env d :
  b2z (beval env (pp_neg_cin d)) = (if beval env (pp_neg d) && negb (beval env (pp_zero d)) then 1 else 0)
  /\ forall x, b2z (beval env (local_pp d x)) =
      if beval env (pp_zero d) then 0
      else if beval env (pp_neg d) then 1 - b2z (beval env x) else b2z (beval env x).
Proof.
  split.
  - unfold pp_neg_cin; cbn [beval]. destruct (beval env (pp_neg d) && negb (beval env (pp_zero d))); reflexivity.
  - intros x. unfold local_pp; cbn [beval].
    destruct (beval env (pp_zero d)); [reflexivity|].
    destruct (beval env (pp_neg d)), (beval env x); reflexivity.
Qed.

Lemma digit_cases env d :
  digit_val env d =
   (if beval env (pp_zero d) then 0 else
    (if beval env (pp_neg d) then -1 else 1) * (if beval env (pp_shifted d) then 2 else 1)).
Proof.
  destruct d as [[d2 d1] d0]; cbn.
  destruct (beval env d2), (beval env d1), (beval env d0); reflexivity.
Qed.

Lemma pow2_sum n : sumf (fun i => 2 ^ Z.of_nat i) 0 n = 2 ^ Z.of_nat n - 1.
Proof.
  induction n; [reflexivity|]. rewrite sumf_last, IHn, Nat.add_0_l, pow_nat_S. ring.
Qed.

Lemma sumf_plus f g s n : sumf (fun i => f i + g i) s n = sumf f s n + sumf g s n.
Proof. revert s; induction n; simpl; intros; [lia|]. rewrite IHn; ring. Qed.
Lemma sumf_zero s n : sumf (fun _ => 0) s n = 0.
Proof. revert s; induction n; simpl; intros; auto. Qed.
Lemma sumf_shift f s n : sumf f (S s) n = sumf (fun i => f (S i)) s n.
Proof. revert s; induction n; simpl; intros; auto. rewrite IHn; auto. Qed.

(** the multiple selected by a digit, bit k (0 <= k < m), then the top bit *)
Definition sel_bit env (b : operand) (sh : bool) (k : nat) : Z :=
  if sh then match k with O => 0 | S k' => b2z (beval env (op_bit b k')) end
  else b2z (beval env (op_bit b k)).

Lemma sel_sum env b sh :
  let m := op_size b in (0 < m)%nat ->
  let top := b2z (beval env (op_bit b (m - 1))) in
  sumf (fun k => sel_bit env b sh k * 2 ^ Z.of_nat k) 0 m
  + (if op_signed b then - (2 ^ Z.of_nat m) * top
     else 2 ^ Z.of_nat m * (if sh then top else 0))
  = op_int env b * (if sh then 2 else 1).
Proof.
  intros m Hm top. unfold op_int. fold m.
  rewrite low_code_sumf.
  assert (Etop : (if op_signed b && beval env (op_bit b (m - 1)) then 2 ^ Z.of_nat m else 0)
                 = (if op_signed b then 1 else 0) * top * 2 ^ Z.of_nat m).
  { unfold top. destruct (op_signed b), (beval env (op_bit b (m - 1))); cbn [andb b2z]; ring. }
  rewrite Etop.
  destruct sh.
  - unfold top. clear Etop top. clearbody m.
    destruct m as [|m']; [lia|]. replace (S m' - 1)%nat with m' by lia.
    rewrite (sumf_last (fun i => b2z (beval env (op_bit b i)) * 2 ^ Z.of_nat i)), Nat.add_0_l.
    replace (sumf (fun k => sel_bit env b true k * 2 ^ Z.of_nat k) 0 (S m'))
      with (sumf (fun i => b2z (beval env (op_bit b i)) * 2 ^ Z.of_nat i) 0 m' * 2).
    2:{ cbn [sumf]. rewrite sumf_shift. cbn [sel_bit]. rewrite Z.mul_0_l, Z.add_0_l, <- sumf_scale.
        apply sumf_ext; intros; rewrite pow_nat_S; ring. }
    rewrite pow_nat_S.
    destruct (op_signed b); ring.
  - unfold sel_bit. rewrite Z.mul_1_r. destruct (op_signed b); ring.
Qed.

Lemma booth_insert_digit_ok env base b d i hp :
  (0 < op_size b)%nat -> base <= 0 -> hp_ok base hp ->
  hp_ok base (booth_insert_digit b (d, i) hp) /\
  hp_val env base (booth_insert_digit b (d, i) hp)
  = hp_val env base hp + digit_val env d * 2 ^ Z.of_nat i * op_int env b * 2 ^ (- base).
Proof.
  intros Hm Hb (W1 & W2 & A1 & A2). destruct hp as [p n]. unfold booth_insert_digit.
  cbn [fst snd] in *.
  set (m := op_size b) in *. set (I := Z.of_nat i).
  set (p0 := insert_bit I (local_pp d (BSel (pp_shifted d) (BCst false) (op_bit b 0))) p).
  set (p1 := insert_bit I (pp_neg_cin d) p0).
  assert (EI : forall k, 0 <= k -> 2 ^ (I + k - base) = 2 ^ k * (2 ^ I * 2 ^ (- base))).
  { intros k Hk. unfold I. rewrite <- !Z.pow_add_r by lia. f_equal; lia. }
  pose proof (EI 0 ltac:(lia)) as EI0. rewrite Z.add_0_r in EI0.
  destruct (pp_bits env d) as [Pc Pl].
  set (z := beval env (pp_zero d)) in *. set (g := beval env (pp_neg d)) in *.
  set (sh := beval env (pp_shifted d)).
  set (loc := fun v : Z => if z then 0 else if g then 1 - v else v).
  assert (Ok1 : insert_pos_ok base p1).
  { unfold p1, p0. apply ins_ok; [unfold I; lia|]. apply ins_ok; [unfold I; lia|]. split; auto. }
  assert (V1 : heap_val env base p1 = heap_val env base p
     + (loc (sel_bit env b sh 0) + (if g && negb z then 1 else 0)) * (2 ^ I * 2 ^ (- base))).
  { unfold p1, p0. rewrite !insert_val, Pc, Pl, EI0.
    unfold loc, sel_bit, sh. cbn [beval].
    destruct z, g, (beval env (pp_shifted d)); cbn [andb negb beval b2z]; ring. }
  set (mid := fold_left (fun pos k => insert_bit (I + Z.of_nat k)
        (local_pp d (BSel (pp_shifted d) (op_bit b (k - 1)) (op_bit b k))) pos) (seq 1 (m - 1)) p1).
  assert (Hmid : insert_pos_ok base mid /\ heap_val env base mid = heap_val env base p1 +
     sumf (fun k => (loc (sel_bit env b sh k) * 2 ^ Z.of_nat k) * (2 ^ I * 2 ^ (- base))) 1 (m - 1)).
  { unfold mid. apply (fold_seq (insert_pos_ok base) (heap_val env base)); auto.
    intros x k Hk Hx. split.
    - apply ins_ok; auto; unfold I; lia.
    - rewrite insert_val, Pl, EI by lia. unfold loc, sel_bit, sh. cbn [beval].
      destruct k as [|k']; [lia|]. replace (S k' - 1)%nat with k' by lia.
      destruct z, g, (beval env (pp_shifted d)); ring. }
  destruct Hmid as [Okm Vm].
  set (msb := local_pp d (BSel (pp_shifted d) (op_bit b (m - 1))
                (if op_signed b then op_bit b (m - 1) else BCst false))).
  set (top := b2z (beval env (op_bit b (m - 1)))).
  assert (Vmsb : b2z (beval env msb) = loc (if op_signed b then top else if sh then top else 0)).
  { unfold msb. rewrite Pl. unfold loc, top, sh. cbn [beval].
    destruct z, g, (op_signed b), (beval env (pp_shifted d)); reflexivity. }
  pose proof (sel_sum env b sh Hm) as Hsel. fold m top in Hsel.
  rewrite sumf_scale in Vm.
  assert (Sloc : loc (sel_bit env b sh 0) + sumf (fun k => loc (sel_bit env b sh k) * 2 ^ Z.of_nat k) 1 (m - 1)
     = if z then 0 else if g then (2 ^ Z.of_nat m - 1) - sumf (fun k => sel_bit env b sh k * 2 ^ Z.of_nat k) 0 m
       else sumf (fun k => sel_bit env b sh k * 2 ^ Z.of_nat k) 0 m).
  { transitivity (sumf (fun k => loc (sel_bit env b sh k) * 2 ^ Z.of_nat k) 0 m).
    - destruct m as [|m']; [lia|]. replace (S m' - 1)%nat with m' by lia. cbn [sumf].
      change (Z.of_nat 0) with 0. rewrite Z.pow_0_r. ring.
    - unfold loc. destruct z.
      + rewrite (sumf_ext _ (fun _ => 0)) by (intros; ring). apply sumf_zero.
      + destruct g; [|reflexivity].
        rewrite (sumf_ext _ (fun k => 2 ^ Z.of_nat k + (sel_bit env b sh k * 2 ^ Z.of_nat k) * (-1))) by (intros; ring).
        rewrite sumf_plus, sumf_scale, pow2_sum. ring. }
  rewrite digit_cases. fold z g sh.
  assert (EIm : 2 ^ (I + Z.of_nat m - base) = 2 ^ Z.of_nat m * (2 ^ I * 2 ^ (- base))) by (apply EI; lia).
  assert (EIm1 : 2 ^ (I + Z.of_nat m + 1 - base) = 2 * 2 ^ Z.of_nat m * (2 ^ I * 2 ^ (- base))).
  { replace (I + Z.of_nat m + 1) with (I + (Z.of_nat m + 1)) by lia. rewrite EI by lia.
    rewrite Z.pow_add_r by lia. change (2 ^ 1) with 2. ring. }
  set (X := 2 ^ I * 2 ^ (- base)) in *.
  set (P := 2 ^ Z.of_nat m) in *.
  set (S1 := sumf (fun k => loc (sel_bit env b sh k) * 2 ^ Z.of_nat k) 1 (m - 1)) in *.
  set (S0 := sumf (fun k => sel_bit env b sh k * 2 ^ Z.of_nat k) 0 m) in *.
  set (B := op_int env b) in *.
  assert (S1E : S1 = (if z then 0 else if g then P - 1 - S0 else S0) - loc (sel_bit env b sh 0)) by lia.
  set (L0 := sel_bit env b sh 0) in *. set (D := if sh then 2 else 1) in *.
  replace ((if z then 0 else (if g then -1 else 1) * D) * 2 ^ I * B * 2 ^ (- base))
    with ((if z then 0 else if g then -1 else 1) * (B * D) * X)
    by (unfold X; destruct z; ring).
  cbv zeta in Hsel. rewrite <- Hsel.
  destruct (op_signed b) eqn:Es.
  - split.
    + destruct Okm as [Q1 Q2]. repeat split; cbn [fst snd]; try apply Q1; auto;
      try (apply insert_wf; auto); apply insert_above; auto; unfold I; lia.
    + unfold hp_val; cbn [fst snd]. rewrite insert_val, Vm, V1, EIm, Vmsb, S1E.
      unfold loc. destruct z, g; cbn [andb negb]; ring.
  - split.
    + destruct Okm as [Q1 Q2]. repeat split; cbn [fst snd]; try (apply insert_wf; auto);
      apply insert_above; auto; unfold I; lia.
    + unfold hp_val; cbn [fst snd]. rewrite !insert_val, Vm, V1, EIm, EIm1, Vmsb, Pc, S1E.
      unfold loc. destruct z, g, sh; cbn [andb negb]; ring.
Qed.

(** digits of the recoding *)
Definition ext_bit (a : operand) (i : nat) : bexp :=
  if Nat.ltb i (op_size a) then op_bit a i
  else if op_signed a then op_bit a (op_size a - 1) else BCst false.

Fixpoint digits_val env (l : list ((bexp * bexp * bexp) * nat)) : Z :=
  match l with
  | [] => 0
  | (d, i) :: t => digit_val env d * 2 ^ Z.of_nat i + digits_val env t
  end.
Lemma digits_val_app env l1 l2 : digits_val env (l1 ++ l2) = digits_val env l1 + digits_val env l2.
Proof. induction l1 as [|[d i] t IH]; simpl; [lia|]. rewrite IH; ring. Qed.

(** telescoping sum of the digits built on an extended bit sequence *)
Lemma booth_telescope env (bit : nat -> bexp) k :
  digit_val env (bit 1%nat, bit 0%nat, BCst false) +
  digits_val env (map (fun i => ((bit (i + 1)%nat, bit i, bit (i - 1)%nat), i))
                   (map (fun t => (2 * S t)%nat) (seq 0 k)))
  = low_code env bit (2 * S k) - b2z (beval env (bit (2 * k + 1)%nat)) * 2 ^ Z.of_nat (2 * S k).
Proof.
  induction k as [|k IH].
  - cbn. destruct (beval env (bit 1%nat)), (beval env (bit 0%nat)); reflexivity.
  - rewrite seq_S, !map_app, digits_val_app, Z.add_assoc, IH.
    cbn [map digits_val]. rewrite Nat.add_0_l.
    replace (2 * S (S k))%nat with (S (S (2 * S k))) by lia.
    cbn [low_code].
    replace (2 * S k + 1)%nat with (S (2 * S k)) by lia.
    replace (2 * S k - 1)%nat with (2 * k + 1)%nat by lia.
    rewrite !pow_nat_S. cbn [digit_val]. ring.
Qed.

Lemma digits_ext env (l : list nat) f g : (forall i, In i l -> f i = g i) ->
  digits_val env (map (fun i => (f i, i)) l) = digits_val env (map (fun i => (g i, i)) l).
Proof.
  induction l; simpl; intros H; auto. rewrite (H a) by auto. rewrite IHl; auto.
Qed.

Lemma low_code_ext env f g n : (forall i, (i < n)%nat -> f i = g i) -> low_code env f n = low_code env g n.
Proof.
  induction n; simpl; intros H; auto. rewrite (H n) by lia. rewrite IHn; auto. 
Qed.

Lemma booth_digits_val env a : (2 <= op_size a)%nat ->
  digits_val env (booth_digits a) = op_int env a.
Proof.
  intros Hn. unfold booth_digits. set (n := op_size a) in *.
  rewrite !digits_val_app. cbn [digits_val]. rewrite Z.add_0_r, Z.mul_1_r.
  set (k := Nat.div (n - 1) 2).
  assert (Hk : n = (2 * S k)%nat \/ n = (2 * k + 1)%nat).
  { pose proof (Nat.div_mod (n - 1) 2 ltac:(lia)). pose proof (Nat.mod_upper_bound (n - 1) 2 ltac:(lia)).
    fold k in H. lia. }
  pose proof (booth_telescope env (ext_bit a) k) as T.
  assert (E1 : (op_bit a 1, op_bit a 0, BCst false) = (ext_bit a 1, ext_bit a 0, BCst false)).
  { unfold ext_bit. fold n. destruct (Nat.ltb_spec 1 n), (Nat.ltb_spec 0 n); auto; lia. }
  assert (E2 : map (booth_mid_digit a) (even_indices n) =
    map (fun i => ((ext_bit a (i + 1)%nat, ext_bit a i, ext_bit a (i - 1)%nat), i))
                   (map (fun t => (2 * S t)%nat) (seq 0 k))).
  { unfold even_indices. fold k. apply map_ext_in. intros i Hi.
    apply in_map_iff in Hi as (t & <- & Ht). apply in_seq in Ht.
    unfold booth_mid_digit, ext_bit. fold n.
    destruct (Nat.ltb_spec (2 * S t) n); [|lia].
    destruct (Nat.ltb_spec (2 * S t - 1) n); [|lia].
    destruct (Nat.ltb_spec (2 * S t + 1) n); reflexivity. }
  rewrite E1, E2, Z.add_assoc, T. clear T E1 E2. unfold op_int. fold n.
  destruct Hk as [Hk|Hk].
  - assert (Nat.even n = true) as -> by (rewrite Hk; apply Nat.even_spec; exists (S k); lia).
    rewrite <- Hk.
    rewrite (low_code_ext env (ext_bit a) (op_bit a)).
    2:{ intros i Hi. unfold ext_bit. fold n. destruct (Nat.ltb_spec i n); auto; lia. }
    replace (ext_bit a (2 * k + 1)) with (op_bit a (n - 1)).
    2:{ unfold ext_bit. fold n. replace (2 * k + 1)%nat with (n - 1)%nat by lia.
        destruct (Nat.ltb_spec (n - 1) n); auto; lia. }
    destruct (op_signed a); cbn [andb negb digits_val digit_val beval b2z].
    + destruct (beval env (op_bit a (n - 1))); cbn [b2z]; ring.
    + ring.
  - assert (Nat.even n = false) as ->.
    { rewrite Hk. rewrite Nat.add_1_r, Nat.even_succ, <- Nat.negb_even, Nat.even_mul. reflexivity. }
    replace (2 * S k)%nat with (S n) by lia. cbn [low_code andb digits_val].
    rewrite (low_code_ext env (ext_bit a) (op_bit a)).
    2:{ intros i Hi. unfold ext_bit. fold n. destruct (Nat.ltb_spec i n); auto; lia. }
    replace (2 * k + 1)%nat with n by lia.
    unfold ext_bit. fold n. rewrite Nat.ltb_irrefl, pow_nat_S.
    destruct (op_signed a); cbn [andb beval b2z]; [|ring].
    destruct (beval env (op_bit a (n - 1))); cbn [b2z]; ring.
Qed.

Lemma booth_multiply_ok env base a b hp :
  (2 <= op_size a)%nat -> (0 < op_size b)%nat -> base <= 0 -> hp_ok base hp ->
  exists hp', booth_multiply a b hp = Some hp' /\ hp_ok base hp' /\ hp_val env base hp' = hp_val env base hp + op_int env a * op_int env b * 2 ^ (- base).
Proof.
  intros Ha Hb Hbase Hok. unfold booth_multiply.
  destruct (Nat.ltb_spec (op_size a) 2); [lia|]. eexists; split; [reflexivity|].
  rewrite <- (booth_digits_val env a Ha). clear Ha H.
  revert hp Hok. induction (booth_digits a) as [|[d i] t IH]; intros hp Hok.
  - cbn. split; auto; lia.
  - cbn [fold_left]. destruct (booth_insert_digit_ok env base b d i hp) as [H1 H2]; auto.
    destruct (IH _ H1) as [H3 H4]. split; auto. rewrite H4, H2. cbn [digits_val]. ring.
Qed.
