(* The exponent of rootn: e/n as an integer plus a fraction, in rounded arithmetic. *)
From Coq Require Import ZArith QArith Qabs Qround Bool Lia.
From Verif Require Import QUtil RoundSpec RoundProofs LimbTriple DivCore DivProofs PowModel PowSpec PowProofs.
From Coq Require Import Lqa.
Open Scope Z_scope.

Section RemExact.
Variable p : Z.
Hypothesis Hp : 12 <= p.
Notation F := (mkF p None).
Variable rnd : Q -> Q.
Hypothesis Hr : nearest_in F rnd.
Notation u := (p2 (- p)).

Lemma H1 : 1 <= prec F. Proof. cbn [prec]. lia. Qed.

(* the remainder of a rounded quotient is a number of the format *)
Theorem remainder_exact : forall a b, inF F a -> inF F b -> ~ (b == 0)%Q ->
  inF F (a - rnd (a / b) * b).
Proof.
  intros a b Ha Hb Hb0.
  destruct (Qeq_dec a 0) as [E|Ha0].
  { assert (rnd (a / b) == 0)%Q as Er0.
    { rewrite (rnd_comp F rnd Hr (a / b) 0).
      - apply (rnd_id F rnd Hr). apply inF_0. exact H1.
      - rewrite E. field. auto. }
    apply (inF_comp F 0); [rewrite Er0, E; ring|]. apply inF_0. exact H1. }
  set (x := (a / b)%Q).
  assert (~ x == 0)%Q as Hx0.
  { unfold x. intro Hc. apply Ha0. setoid_replace a with (a / b * b)%Q by (field; auto). rewrite Hc. ring. }
  set (q := rnd x).
  pose proof (rnd_rel F H1 rnd Hr x eq_refl) as Hrel. fold q in Hrel.
  pose proof (u_small p Hp) as Hu. pose proof (p2_pos (- p)) as Hup.
  assert (0 < Qabs x)%Q as Hxp by (apply Qabs_case; intros; lra).
  assert (u * Qabs x <= (1 # 4096) * Qabs x)%Q as Hs by (apply Qmult_le_compat_r; lra).
  assert (~ q == 0)%Q as Hq0.
  { intro Hc. assert (Qabs (q - x) == Qabs x)%Q as E by (rewrite Hc; setoid_replace (0 - x)%Q with (- x)%Q by ring; apply Qabs_opp).
    cbn [prec] in Hrel. lra. }
  destruct (qlog2_spec (Qabs q)) as [Lq Uq]. { apply Qabs_case; intros; lra. }
  destruct (qlog2_spec (Qabs b)) as [Lb Ub]. { apply Qabs_case; intros; lra. }
  set (kq := qlog2 (Qabs q)) in *. set (kb := qlog2 (Qabs b)) in *.
  assert (inF F q) as Fq by apply (rnd_inF F rnd Hr).
  assert (mult (kq + 1 - p) q) as Mq by (apply (in_grid p Hp); auto).
  assert (mult (kb + 1 - p) b) as Mb by (apply (in_grid p Hp); auto).
  assert (Qabs x <= p2 (kq + 1))%Q as Bx.
  { apply Qnot_lt_le. intro Hc.
    assert (p2 (kq + 1) <= Qabs q)%Q.
    { apply (rnd_abs_ge_F F H1 rnd Hr x (p2 (kq + 1))).
      - apply (grid_in p Hp (kq + 1)).
        + apply mult_p2. lia.
        + rewrite Qabs_pos by (apply Qlt_le_weak, p2_pos). apply p2_le. lia.
      - apply Qlt_le_weak, p2_pos.
      - lra. }
    lra. }
  assert (Qabs (q - x) <= p2 (kq - p))%Q as Hh.
  { replace (kq - p) with ((kq + 1 - p) - 1) by lia.
    apply (rnd_half F H1 rnd Hr (kq + 1 - p) x); [exact I|]. cbn [prec].
    replace (p + (kq + 1 - p)) with (kq + 1) by lia. auto. }
  assert (a == x * b)%Q as Ea by (unfold x; field; auto).
  (* a is a multiple of the unit of the product *)
  assert (mult (kq + kb + 2 - 2 * p) a) as Ma.
  { assert (p2 (kq + kb - 1) <= Qabs a)%Q as Hal.
    { rewrite Ea, Qabs_Qmult.
      assert (p2 (kq - 1) <= Qabs x)%Q.
      { assert (Qabs q <= Qabs x + Qabs (q - x))%Q.
        { setoid_replace q with (x + (q - x))%Q at 1 by ring. apply Qabs_triangle. }
        assert (p2 kq == 2 * p2 (kq - 1))%Q by (rewrite <- p2_succ; replace (kq - 1 + 1) with kq by lia; reflexivity).
        cbn [prec] in Hrel. pose proof (p2_pos (kq - 1)). lra. }
      replace (kq + kb - 1) with ((kq - 1) + kb) by lia. rewrite p2_plus.
      apply Qmult_le_compat_nonneg; split; auto; apply Qlt_le_weak, p2_pos. }
    apply (mult_le (kq + kb - 1 + 1 - p)); [lia|]. apply (in_grid p Hp); auto. }
  assert (mult (kq + kb + 2 - 2 * p) (q * b)) as Mqb.
  { replace (kq + kb + 2 - 2 * p) with ((kq + 1 - p) + (kb + 1 - p)) by lia. apply prod_mult; auto. }
  apply (grid_in p Hp (kq + kb + 1 - p)).
  - replace (kq + kb + 1 - p + 1 - p) with (kq + kb + 2 - 2 * p) by lia. apply mult_minus; auto.
  - assert (a - q * b == - (q - x) * b)%Q as Eab by (rewrite Ea; ring).
    rewrite Eab, Qabs_Qmult, Qabs_opp.
    replace (kq + kb + 1 - p + 1) with ((kq - p) + (kb + 2)) by lia. rewrite p2_plus.
    apply Qmult_le_compat_nonneg; split; auto; try apply Qabs_nonneg.
    apply Qle_trans with (p2 (kb + 1)); [lra|apply p2_le; lia].
Qed.

(* subtracting the nearest integer is exact *)
Theorem nearest_diff_exact : forall x, inF F x -> inF F (x - inject_Z (qrne x)).
Proof.
  intros x Hx. pose proof (qrne_half x) as Hh.
  destruct (inF_elim F H1 x Hx) as (e & Me & _ & Be). cbn [prec] in Be.
  assert (Qabs (x - inject_Z (qrne x)) <= 1 # 2)%Q as Hh'.
  { rewrite <- Qabs_opp. setoid_replace (- (x - inject_Z (qrne x)))%Q with (inject_Z (qrne x) - x)%Q by ring. auto. }
  destruct (Z_le_gt_dec 0 e).
  - destruct (mult_le e 0 x ltac:(lia) Me) as (k & Hk).
    assert (x == inject_Z k)%Q as E by (rewrite Hk, p2_0; ring).
    apply (inF_comp F 0); [rewrite (qrne_int _ _ E), E; ring|apply inF_0; exact H1].
  - destruct (Z_le_gt_dec (-1) (p + e)).
    + apply (inF_intro F H1 e); [|exact I|].
      * apply mult_minus; auto. apply (mult_le 0); [lia|]. exists (qrne x). rewrite p2_0. ring.
      * cbn [prec]. apply Qle_trans with (1 # 2); auto. change (1 # 2)%Q with (p2 (-1)). apply p2_le. lia.
    + assert (qrne x = 0) as E.
      { assert (Qabs x <= p2 (-2))%Q as Hb by (apply Qle_trans with (p2 (p + e)); auto; apply p2_le; lia).
        change (p2 (-2)) with (1 # 4)%Q in Hb. apply Qabs_Qle_condition in Hb.
        apply Qabs_Qle_condition in Hh.
        assert (-1 < qrne x) by (apply inj_lt; change (inject_Z (-1)) with (-1)%Q; lra).
        assert (qrne x < 1) by (apply inj_lt; change (inject_Z 1) with 1%Q; lra). lia. }
      apply (inF_comp F x); auto. rewrite E. change (inject_Z 0) with 0%Q. ring.
Qed.

Theorem rootn_exponent_accurate : forall e n, n <> 0 -> inF F (inject_Z e) -> inF F (inject_Z n) ->
  let x := (inject_Z e / inject_Z n)%Q in
  (u * Qabs x <= 1 # 8)%Q ->
  (Qabs (inject_Z (fst (rootn_exponent rnd e n)) + snd (rootn_exponent rnd e n) - x)
    <= u * ((1 # 2) + 5 * (u * Qabs x)))%Q
  /\ (Qabs (snd (rootn_exponent rnd e n)) <= 1)%Q.
Proof.
  intros e n Hn He Hni x Hx.
  assert (~ inject_Z n == 0)%Q as Hn0.
  { intro Hc. change 0%Q with (inject_Z 0) in Hc. apply (inj_inv _ _) in Hc. auto. }
  pose proof (remainder_exact _ _ He Hni Hn0) as Hrem. fold x in Hrem.
  pose proof (nearest_diff_exact (rnd x) (rnd_inF F rnd Hr x)) as Hdiff.
  pose proof (u_small p Hp) as Hu. pose proof (p2_pos (- p)) as Hup.
  unfold rootn_exponent. cbn [fst snd]. fold x.
  set (a := rnd x) in *. set (k := inject_Z (qrne a)).
  set (r := (inject_Z e - a * inject_Z n)%Q) in *. set (w := rnd (1 / inject_Z n)).
  assert (rnd r == r)%Q as Er by (apply (rnd_id F rnd Hr); auto).
  assert (rnd (a - k) == a - k)%Q as Ek by (apply (rnd_id F rnd Hr); auto).
  assert (rnd (rnd r * w) == rnd (r * w))%Q as Et by (apply (rnd_comp F rnd Hr); rewrite Er; reflexivity).
  set (t := rnd (r * w)).
  assert (rnd (rnd (a - k) + rnd (rnd r * w)) == rnd (a - k + t))%Q as Ef.
  { apply (rnd_comp F rnd Hr). rewrite Ek, Et. reflexivity. }
  set (d := (a - x)%Q).
  assert (Qabs d <= u * Qabs x)%Q as Hd by apply (rnd_rel F H1 rnd Hr x eq_refl).
  assert (r == - d * inject_Z n)%Q as Erd.
  { unfold r, d, x. field. auto. }
  assert (Qabs (w * inject_Z n - 1) <= u)%Q as Hw.
  { pose proof (rnd_rel F H1 rnd Hr (1 / inject_Z n)%Q eq_refl) as H. fold w in H. cbn [prec] in H.
    setoid_replace (w * inject_Z n - 1)%Q with ((w - 1 / inject_Z n) * inject_Z n)%Q by (field; auto).
    rewrite Qabs_Qmult.
    apply Qle_trans with (u * Qabs (1 / inject_Z n) * Qabs (inject_Z n))%Q.
    - apply Qmult_le_compat_r; auto. apply Qabs_nonneg.
    - rewrite <- Qmult_assoc, <- Qabs_Qmult.
      setoid_replace (1 / inject_Z n * inject_Z n)%Q with 1%Q by (field; auto). change (Qabs 1) with 1%Q. lra. }
  set (c := (w * inject_Z n)%Q) in *.
  assert (r * w == - d * c)%Q as Erw by (rewrite Erd; unfold c; ring).
  pose proof (rnd_rel F H1 rnd Hr (r * w)%Q eq_refl) as Ht. fold t in Ht. cbn [prec] in Ht.
  set (D := (u * Qabs x)%Q) in *.
  assert (0 <= D)%Q as HD by (unfold D; apply Qmult_le_0_compat; [lra|apply Qabs_nonneg]).
  assert (Qabs (r * w + d) <= D * u)%Q as Hrw.
  { setoid_replace (r * w + d)%Q with (d * - (c - 1))%Q by (rewrite Erw; ring).
    rewrite Qabs_Qmult, Qabs_opp. apply Qmult_le_compat_nonneg; split; auto; apply Qabs_nonneg. }
  assert (D * u <= (1 # 4096) * D)%Q as HDu.
  { rewrite Qmult_comm. apply Qmult_le_compat_r; lra. }
  assert (Qabs (r * w) <= 2 * D)%Q as Hrw2.
  { setoid_replace (r * w)%Q with ((r * w + d) + - d)%Q by ring.
    eapply Qle_trans; [apply Qabs_triangle|]. rewrite Qabs_opp. lra. }
  assert (u * Qabs (r * w) <= 2 * (D * u))%Q as Ht2.
  { setoid_replace (2 * (D * u))%Q with (u * (2 * D))%Q by ring. apply mle; [lra|auto]. }
  assert (Qabs (t + d) <= 3 * (D * u))%Q as Htd.
  { setoid_replace (t + d)%Q with ((t - r * w) + (r * w + d))%Q by ring.
    eapply Qle_trans; [apply Qabs_triangle|]. lra. }
  assert (Qabs (a - k) <= 1 # 2)%Q as Hak.
  { rewrite <- Qabs_opp. unfold k. setoid_replace (- (a - inject_Z (qrne a)))%Q with (inject_Z (qrne a) - a)%Q by ring.
    apply qrne_half. }
  assert (Qabs t <= 2 * D)%Q as Htt.
  { setoid_replace t with ((t + d) + - d)%Q by ring.
    eapply Qle_trans; [apply Qabs_triangle|]. rewrite Qabs_opp. lra. }
  assert (Qabs (a - k + t) <= (1 # 2) + 2 * D)%Q as Hs.
  { eapply Qle_trans; [apply Qabs_triangle|]. lra. }
  pose proof (rnd_rel F H1 rnd Hr (a - k + t)%Q eq_refl) as Hf. cbn [prec] in Hf.
  assert (u * Qabs (a - k + t) <= u * ((1 # 2) + 2 * D))%Q as Hf2 by (apply mle; [lra|auto]).
  split.
  - rewrite Ef.
    setoid_replace (k + rnd (a - k + t) - x)%Q
      with ((rnd (a - k + t) - (a - k + t)) + (t + d))%Q by (unfold d; ring).
    eapply Qle_trans; [apply Qabs_triangle|]. lra.
  - rewrite Ef. setoid_replace (rnd (a - k + t)) with ((rnd (a - k + t) - (a - k + t)) + (a - k + t))%Q by ring.
    eapply Qle_trans; [apply Qabs_triangle|].
    assert (u * ((1 # 2) + 2 * D) <= (1 # 4096) * ((1 # 2) + 2 * D))%Q by (apply Qmult_le_compat_r; lra). lra.
Qed.
End RemExact.
