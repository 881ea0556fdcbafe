(* Properties of the square root and reciprocal square root schemes. *)
From Coq Require Import ZArith QArith Qround Qabs List Bool Lia Lqa Setoid.
From Verif Require DivProofs.
From Verif Require Import QUtil FpFormatModel SpecialModel RoundSpec RoundProofs RoundRne SqrtModel SqrtSpec SqrtErr SqrtCore SqrtRange SqrtSeed SqrtProofs SqrtHard.
Import ListNotations.
Open Scope Z_scope.

(* ---- numbers of iterations ---- *)
Lemma pw_range : forall n a, (0 <= a <= 1)%Q -> (0 <= pw a n <= a)%Q.
Proof.
  induction n as [|n IH]; intros a Ha; cbn [pw]; [lra|].
  assert (S : (0 <= a * a <= a)%Q) by nra. destruct (IH (a * a)%Q ltac:(lra)). lra.
Qed.
Lemma pw_le : forall n m a, (0 <= a <= 1)%Q -> (n <= m)%nat -> (pw a m <= pw a n)%Q.
Proof.
  induction n as [|n IH]; intros m a Ha Hm; [cbn [pw]; apply pw_range; auto|].
  destruct m as [|m]; [lia|]. cbn [pw]. apply IH; [nra|lia].
Qed.

(* ---- correct rounding of the square root ---- *)
Notation F32 := (mkF 24 (Some (-149))).
Notation F64 := (mkF 53 (Some (-1074))).

Lemma fmt32 : fmt_of ML_Binary32 = F32. Proof. reflexivity. Qed.
Lemma fmt64 : fmt_of ML_Binary64 = F64. Proof. reflexivity. Qed.

Lemma scheme_pos : forall G n v, (0 < v)%Q -> sqrt_scheme G n (Num v) = Num (sqrt_num G n v).
Proof.
  intros G n v P. unfold sqrt_scheme. cbn [test_nan test_inf test_negative test_zero orb].
  assert (A : Qle_bool 0 v = true) by (apply Qle_bool_iff; lra). rewrite A. cbn [negb].
  destruct (Qeq_bool v 0) eqn:E; [apply Qeq_bool_iff in E; lra|]. reflexivity.
Qed.
Lemma ischeme_pos : forall G n v, (0 < v)%Q -> isqrt_scheme G n (Num v) = Num (isqrt_num G n v).
Proof.
  intros G n v P. unfold isqrt_scheme. cbn [test_nan test_inf test_negative test_zero orb].
  assert (A : Qle_bool 0 v = true) by (apply Qle_bool_iff; lra). rewrite A. cbn [negb].
  destruct (Qeq_bool v 0) eqn:E; [apply Qeq_bool_iff in E; lra|]. reflexivity.
Qed.

Lemma run_eq : forall p rnd n v, run p rnd n v = compute_sqrt rnd v (invsqrt_seed rnd p v) n.
Proof. reflexivity. Qed.
Lemma sqrt_num_eq : forall G n v, sqrt_num G n v = compute_sqrt (rne (fmt_of G)) v (invsqrt_seed (rne (fmt_of G)) (sprec G) v) n.
Proof. reflexivity. Qed.
Lemma isqrt_num_eq : forall G n v, isqrt_num G n v = compute_isqrt (rne (fmt_of G)) v (invsqrt_seed (rne (fmt_of G)) (sprec G) v) n.
Proof. reflexivity. Qed.

(* the general statement, for a format of which the exceptional operands are
   correctly rounded *)
Lemma sqrt_format_correct : forall G p em n v, fmt_of G = mkF p (Some em) -> sprec G = p -> 12 <= p -> em + 2 * p + 5 <= 0 ->
  (pw (1 # 128) n <= p2 (- p))%Q -> hard_ok p (rne (mkF p None)) 0 n ->
  (forall j, - em - p <= 2 * j + 1 <= - em - p + 3 -> hard_ok p (rne (mkF p (Some em))) j n) ->
  inF (fmt_of G) v -> (p2 (em + 2 * p) <= v < p2 (- em - p + 3))%Q ->
  exists r, sqrt_scheme G n (Num v) = Num r /\ sqrt_rn (fmt_of G) v r.
Proof.
  intros G p em n v EF Ep Hp Hem Hn H1 H2 Fv [Lo Hi]. exists (sqrt_num G n v). pose proof (p2_pos (em + 2 * p)).
  split; [apply scheme_pos; lra|]. rewrite sqrt_num_eq. rewrite EF, Ep in *.
  rewrite <- run_eq. apply (sqrt_correctly_rounded p em v Hp Hem Fv Lo (Qlt_le_weak _ _ Hi) n Hi Hn H1 H2).
Qed.
Lemma isqrt_format_bound : forall G p em n v, fmt_of G = mkF p (Some em) -> sprec G = p -> 12 <= p -> em + 2 * p + 5 <= 0 ->
  inF (fmt_of G) v -> (p2 (em + 2 * p) <= v < p2 (- em - p + 3))%Q ->
  exists r, isqrt_scheme G n (Num v) = Num r /\ (0 < r)%Q /\ (Qabs (1 - v * r * r) <= pw (1 # 128) n + 9 * p2 (- p))%Q.
Proof.
  intros G p em n v EF Ep Hp Hem Fv [Lo Hi]. exists (isqrt_num G n v). pose proof (p2_pos (em + 2 * p)).
  split; [apply ischeme_pos; lra|]. rewrite isqrt_num_eq. rewrite EF, Ep in *.
  assert (Hr : nearest_in (mkF p (Some em)) (rne (mkF p (Some em)))) by (apply rne_nearest; cbn [prec]; lia).
  apply (isqrt_error p em v Hp Hem Fv Lo (Qlt_le_weak _ _ Hi) _ Hr n).
Qed.
Lemma isqrt_format_late : forall G p em n v, fmt_of G = mkF p (Some em) -> sprec G = p -> 24 <= p -> em + 2 * p + 5 <= 0 -> (3 <= n)%nat ->
  (p <= 53) -> inF (fmt_of G) v -> (p2 (em + 2 * p) <= v <= p2 (- em - p))%Q ->
  exists r, isqrt_scheme G n (Num v) = Num r /\ (0 < r)%Q /\ (Qabs (1 - v * r * r) <= (7 # 2) * p2 (- p))%Q.
Proof.
  intros G p em n v EF Ep Hp Hem Hn Hp' Fv [Lo Hi]. exists (isqrt_num G n v). pose proof (p2_pos (em + 2 * p)).
  split; [apply ischeme_pos; lra|]. rewrite isqrt_num_eq. rewrite EF, Ep in *.
  assert (Hr : nearest_in (mkF p (Some em)) (rne (mkF p (Some em)))) by (apply rne_nearest; cbn [prec]; lia).
  assert (Vhi : (v <= p2 (- em - p + 3))%Q) by (apply Qle_trans with (p2 (- em - p)); auto; apply p2_le; lia).
  set (rb := rne (mkF p (Some em))) in *. clearbody rb.
  split; [apply (isqrt_error p em v ltac:(lia) Hem Fv Lo Vhi rb Hr n)|].
  destruct n as [|n]; [lia|].
  assert (P : (pw (1 # 128) n <= pw (1 # 128) 2)%Q) by (apply pw_le; [lra|lia]).
  assert (P0 : (0 <= pw (1 # 128) n)%Q) by (apply pw_range; lra).
  setoid_replace (pw (1 # 128) 2) with (1 # 268435456)%Q in P by reflexivity.
  pose proof (isqrt_error_late p em v ltac:(lia) Hem Fv Lo Vhi rb Hr n Hi) as E.
  cbv zeta in E. set (r := compute_isqrt rb v _ (S n)) in *. clearbody r. set (a := pw (1 # 128) n) in *. clearbody a.
  assert (U1 : (p2 (- p) <= 1 # 16777216)%Q) by (apply Qle_trans with (p2 (-24)); [apply p2_le; lia|discriminate]).
  assert (U2 : ((1 # 9007199254740992) <= p2 (- p))%Q) by (apply Qle_trans with (p2 (-53)); [discriminate|apply p2_le; lia]).
  set (u := p2 (- p)) in *. clearbody u.
  specialize (E ltac:(lra)). eapply Qle_trans; [exact E|].
  assert (X : ((a + 9 * u) * (a + 9 * u) <= (1 # 268435456) * (1 # 268435456) + ((18 # 268435456) + 81 * (1 # 16777216)) * u)%Q); [|lra].
  assert (Y1 : (a * a <= (1 # 268435456) * (1 # 268435456))%Q) by nra.
  assert (Y2 : (a * u <= (1 # 268435456) * u)%Q) by (apply Qmult_le_compat_r; lra).
  assert (Y3 : (u * u <= (1 # 16777216) * u)%Q) by (apply Qmult_le_compat_r; lra).
  setoid_replace ((a + 9 * u) * (a + 9 * u))%Q with (a * a + 18 * (a * u) + 81 * (u * u))%Q by ring. lra.
Qed.

Lemma pw2_24 : (pw (1 # 128) 2 <= p2 (- (24)))%Q. Proof. vm_compute. discriminate. Qed.
Lemma pw3_53 : (pw (1 # 128) 3 <= p2 (- (53)))%Q. Proof. vm_compute. discriminate. Qed.

Lemma hard32 : forall n, (2 <= n)%nat -> hard_ok 24 (rne (mkF 24 None)) 0 n.
Proof. intros n Hn. apply (hard_sound (mkF 24 None) 24 0 2 1); [cbn [prec]; lia|lia|exact hard_inf_32|exact Hn]. Qed.
Lemma hard32_top : forall n, (2 <= n)%nat -> forall j, - (-149) - 24 <= 2 * j + 1 <= - (-149) - 24 + 3 -> hard_ok 24 (rne F32) j n.
Proof.
  intros n Hn j Hj. assert (J : j = 62 \/ j = 63) by lia. destruct J as [E|E]; rewrite E.
  - apply (hard_sound F32 24 62 2 1); [cbn [prec]; lia|lia|exact hard_62_32|exact Hn].
  - apply (hard_sound F32 24 63 2 2); [cbn [prec]; lia|lia|exact hard_63_32|exact Hn].
Qed.
Lemma hard64 : forall n, (3 <= n)%nat -> hard_ok 53 (rne (mkF 53 None)) 0 n.
Proof. intros n Hn. apply (hard_sound (mkF 53 None) 53 0 3 1); [cbn [prec]; lia|lia|exact hard_inf_64|exact Hn]. Qed.
Lemma hard64_top : forall n, (3 <= n)%nat -> forall j, - (-1074) - 53 <= 2 * j + 1 <= - (-1074) - 53 + 3 -> hard_ok 53 (rne F64) j n.
Proof.
  intros n Hn j Hj. assert (J : j = 510 \/ j = 511) by lia. destruct J as [E|E]; rewrite E.
  - apply (hard_sound F64 53 510 3 1); [cbn [prec]; lia|lia|exact hard_510_64|exact Hn].
  - apply (hard_sound F64 53 511 3 1); [cbn [prec]; lia|lia|exact hard_511_64|exact Hn].
Qed.

(* any number of iterations from 2 on (binary32), 3 on (binary64): the result
   is the number of the format nearest to the square root, for every finite
   operand from 2^-101 (2^-968) on *)
Theorem sqrt_binary32_correct : forall n v, (2 <= n)%nat ->
  inF (fmt_of ML_Binary32) v -> (p2 (-101) <= v < p2 128)%Q ->
  exists r, sqrt_scheme ML_Binary32 n (Num v) = Num r /\ sqrt_rn (fmt_of ML_Binary32) v r.
Proof.
  intros n v Hn Fv B.
  apply (sqrt_format_correct ML_Binary32 24 (-149) n v fmt32 eq_refl ltac:(lia) ltac:(lia)); [|exact (hard32 n Hn)|exact (hard32_top n Hn)|exact Fv|exact B].
  apply Qle_trans with (pw (1 # 128) 2); [apply pw_le; [lra|exact Hn]|exact pw2_24].
Qed.
Theorem sqrt_binary64_correct : forall n v, (3 <= n)%nat ->
  inF (fmt_of ML_Binary64) v -> (p2 (-968) <= v < p2 1024)%Q ->
  exists r, sqrt_scheme ML_Binary64 n (Num v) = Num r /\ sqrt_rn (fmt_of ML_Binary64) v r.
Proof.
  intros n v Hn Fv B.
  apply (sqrt_format_correct ML_Binary64 53 (-1074) n v fmt64 eq_refl ltac:(lia) ltac:(lia)); [|exact (hard64 n Hn)|exact (hard64_top n Hn)|exact Fv|exact B].
  apply Qle_trans with (pw (1 # 128) 3); [apply pw_le; [lra|exact Hn]|exact pw3_53].
Qed.

Example sqrt_2_binary32 : inF (fmt_of ML_Binary32) 2 /\ (p2 (-101) <= 2 < p2 128)%Q
  /\ sqrt_num ML_Binary32 3 2 == (11863283 # 8388608).
Proof.
  split; [exists 2, 0; repeat split; try reflexivity; discriminate|]. split; [split; [discriminate|reflexivity]|].
  vm_compute. reflexivity.
Qed.

(* the lower limit is there for a reason: normal operands below it have
   wrongly rounded square roots, the last one just below 2^-102 *)
Lemma not_sqrt_rn : forall F v R r f, (R == r)%Q -> inF F f -> (0 <= f)%Q ->
  ((f < r /\ 4 * v < (f + r) * (f + r)) \/ (r < f /\ (f + r) * (f + r) < 4 * v))%Q -> ~ sqrt_rn F v R.
Proof.
  intros F v R r f E Ff f0 H (_ & _ & C). destruct (C f Ff f0) as [C1 C2]. destruct H as [[H1 H2]|[H1 H2]].
  - specialize (C1 ltac:(rewrite E; exact H1)). rewrite E in C1. lra.
  - specialize (C2 ltac:(rewrite E; exact H1)). rewrite E in C2. lra.
Qed.
Lemma inF_lit : forall p em m e, Z.abs m <=? 2 ^ p = true -> em <=? e = true -> inF (mkF p (Some em)) (inject_Z m * p2 e).
Proof.
  intros p em m e H1 H2. apply Z.leb_le in H1, H2. exists m, e. split; [reflexivity|]. split; cbn [prec emin]; auto.
Qed.

Theorem sqrt_binary32_small_refuted :
  ~ sqrt_rn (fmt_of ML_Binary32) (inject_Z (2 ^ 23 + 5) * p2 (-149)) (sqrt_num ML_Binary32 3 (inject_Z (2 ^ 23 + 5) * p2 (-149)))
  /\ ~ sqrt_rn (fmt_of ML_Binary32) (inject_Z (2 ^ 24 - 1) * p2 (-126)) (sqrt_num ML_Binary32 3 (inject_Z (2 ^ 24 - 1) * p2 (-126))).
Proof.
  split.
  - apply (not_sqrt_rn _ _ _ (inject_Z 8388611 * p2 (-86)) (inject_Z 8388610 * p2 (-86))); [vm_compute; reflexivity|apply inF_lit; reflexivity|vm_compute; discriminate|].
    left. split; vm_compute; reflexivity.
  - apply (not_sqrt_rn _ _ _ (p2 (-51)) (inject_Z (2 ^ 24 - 1) * p2 (-75))); [vm_compute; reflexivity|apply inF_lit; reflexivity|vm_compute; discriminate|].
    left. split; vm_compute; reflexivity.
Qed.
Theorem sqrt_binary64_small_refuted :
  ~ sqrt_rn (fmt_of ML_Binary64) (inject_Z (2 ^ 52 + 5) * p2 (-1074)) (sqrt_num ML_Binary64 3 (inject_Z (2 ^ 52 + 5) * p2 (-1074))).
Proof.
  apply (not_sqrt_rn _ _ _ (inject_Z (2 ^ 52 + 3) * p2 (-563)) (inject_Z (2 ^ 52 + 2) * p2 (-563))); [vm_compute; reflexivity|apply inF_lit; reflexivity|vm_compute; discriminate|].
  left. split; vm_compute; reflexivity.
Qed.

(* ---- reciprocal square root ---- *)
Theorem isqrt_binary32_accurate : forall n v, (3 <= n)%nat ->
  inF (fmt_of ML_Binary32) v -> (p2 (-101) <= v <= p2 125)%Q ->
  exists r, isqrt_scheme ML_Binary32 n (Num v) = Num r /\ (0 < r)%Q /\ (Qabs (1 - v * r * r) <= (7 # 2) * p2 (-24))%Q.
Proof. intros n v Hn Fv B. exact (isqrt_format_late ML_Binary32 24 (-149) n v fmt32 eq_refl ltac:(lia) ltac:(lia) Hn ltac:(lia) Fv B). Qed.
Theorem isqrt_binary64_accurate : forall n v, (3 <= n)%nat ->
  inF (fmt_of ML_Binary64) v -> (p2 (-968) <= v <= p2 1021)%Q ->
  exists r, isqrt_scheme ML_Binary64 n (Num v) = Num r /\ (0 < r)%Q /\ (Qabs (1 - v * r * r) <= (7 # 2) * p2 (-53))%Q.
Proof. intros n v Hn Fv B. exact (isqrt_format_late ML_Binary64 53 (-1074) n v fmt64 eq_refl ltac:(lia) ltac:(lia) Hn ltac:(lia) Fv B). Qed.
(* the whole range, with a larger constant, and any number of iterations *)
Theorem isqrt_binary32_bound : forall n v,
  inF (fmt_of ML_Binary32) v -> (p2 (-101) <= v < p2 128)%Q ->
  exists r, isqrt_scheme ML_Binary32 n (Num v) = Num r /\ (0 < r)%Q /\ (Qabs (1 - v * r * r) <= pw (1 # 128) n + 9 * p2 (-24))%Q.
Proof. intros n v Fv B. exact (isqrt_format_bound ML_Binary32 24 (-149) n v fmt32 eq_refl ltac:(lia) ltac:(lia) Fv B). Qed.
Theorem isqrt_binary64_bound : forall n v,
  inF (fmt_of ML_Binary64) v -> (p2 (-968) <= v < p2 1024)%Q ->
  exists r, isqrt_scheme ML_Binary64 n (Num v) = Num r /\ (0 < r)%Q /\ (Qabs (1 - v * r * r) <= pw (1 # 128) n + 9 * p2 (-53))%Q.
Proof. intros n v Fv B. exact (isqrt_format_bound ML_Binary64 53 (-1074) n v fmt64 eq_refl ltac:(lia) ltac:(lia) Fv B). Qed.

(* it is not the nearest one in general *)
Lemma not_rsqrt_rn : forall F v R r f, (R == r)%Q -> inF F f -> (0 <= f)%Q ->
  ((f < r /\ 4 < (f + r) * (f + r) * v) \/ (r < f /\ (f + r) * (f + r) * v < 4))%Q -> ~ rsqrt_rn F v R.
Proof.
  intros F v R r f E Ff f0 H (_ & _ & C). destruct (C f Ff f0) as [C1 C2]. destruct H as [[H1 H2]|[H1 H2]].
  - specialize (C1 ltac:(rewrite E; exact H1)). rewrite E in C1. lra.
  - specialize (C2 ltac:(rewrite E; exact H1)). rewrite E in C2. lra.
Qed.
Theorem isqrt_nearest_refuted :
  ~ rsqrt_rn (fmt_of ML_Binary32) (inject_Z (2 ^ 23 + 2055) * p2 (-23)) (isqrt_num ML_Binary32 3 (inject_Z (2 ^ 23 + 2055) * p2 (-23)))
  /\ ~ rsqrt_rn (fmt_of ML_Binary64) (inject_Z (2 ^ 52 + 45 * 2 ^ 40) * p2 (-52)) (isqrt_num ML_Binary64 3 (inject_Z (2 ^ 52 + 45 * 2 ^ 40) * p2 (-52))).
Proof.
  split.
  - apply (not_rsqrt_rn _ _ _ (inject_Z 16775162 * p2 (-24)) (inject_Z 16775161 * p2 (-24))); [vm_compute; reflexivity|apply inF_lit; reflexivity|vm_compute; discriminate|].
    left. split; vm_compute; reflexivity.
  - apply (not_rsqrt_rn _ _ _ (inject_Z 8958125220889103 * p2 (-53)) (inject_Z 8958125220889102 * p2 (-53))); [vm_compute; reflexivity|apply inF_lit; reflexivity|vm_compute; discriminate|].
    left. split; vm_compute; reflexivity.
Qed.

(* ---- the seed ---- *)
(* any positive number with unbounded exponents; any positive number of a
   format with bounded exponents *)
Theorem invsqrt_seed_error : forall p v rnd, 12 <= p -> (0 < v)%Q ->
  nearest_in (mkF p None) rnd \/ (exists em, em + 2 * p + 5 <= 0 /\ (v <= p2 (- em - p + 3))%Q /\ nearest_in (mkF p (Some em)) rnd) ->
  (0 < invsqrt_seed rnd p v)%Q /\ (Qabs (1 - v * invsqrt_seed rnd p v * invsqrt_seed rnd p v) <= (1 # 128) + 9 * p2 (- p))%Q.
Proof.
  intros p v rnd Hp Pv [Hr|(em & Hem & Hv & Hr)].
  - destruct (seed_error p v rnd (fun _ => True) Hp Pv) as (A & B & _); auto.
    intros x _. apply (rnd_rel (mkF p None) ltac:(cbn [prec]; lia) rnd Hr x eq_refl).
  - destruct (seed_error p v rnd (ok p em) Hp Pv (ok_rel p em rnd Hp Hr)) as (A & B & _); auto.
    intros x Px Hx. right. rewrite Qabs_pos by lra. apply Qnot_lt_le. intros L.
    set (w := p2 (em + p - 1)) in *. assert (Pw : (0 < w)%Q) by apply p2_pos.
    assert (S : (x * x < w * w)%Q) by nra.
    assert (T : (v * (x * x) <= p2 (- em - p + 3) * (w * w))%Q).
    { apply Qle_trans with (v * (w * w))%Q; [apply DivProofs.mle; lra|]. apply Qmult_le_compat_r; [exact Hv|]. nra. }
    assert (E : (p2 (- em - p + 3) * (w * w) == p2 (em + p + 1))%Q).
    { unfold w. rewrite <- !p2_plus. replace (- em - p + 3 + (em + p - 1 + (em + p - 1))) with (em + p + 1) by lia. reflexivity. }
    assert (P : (p2 (em + p + 1) <= p2 (-16))%Q) by (apply p2_le; lia).
    setoid_replace (p2 (-16)) with (1 # 65536)%Q in P by reflexivity. lra.
Qed.
Example invsqrt_seed_nontrivial : (invsqrt_seed (rne (fmt_of ML_Binary32)) 24 3 == 4842629 # 8388608)%Q.
Proof. vm_compute. reflexivity. Qed.

(* ---- special data ---- *)
Theorem sqrt_special : forall G n vx w, ieee_sqrt_special vx = Some w -> vx <> MZero -> sqrt_scheme G n vx = w.
Proof.
  intros G n vx w H N. destruct vx as [| | | | | |q]; cbn [ieee_sqrt_special] in H; try (injection H as <-; reflexivity); try congruence.
  destruct (Qlt_le_dec q 0) as [L|L]; [|discriminate]. injection H as <-. unfold sqrt_scheme. cbn [test_nan test_inf test_negative test_zero orb].
  destruct (Qle_bool 0 q) eqn:E; [apply Qle_bool_iff in E; lra|]. reflexivity.
Qed.
Theorem isqrt_special : forall G n vx w, ieee_rsqrt_special vx = Some w -> vx <> MZero -> isqrt_scheme G n vx = w.
Proof.
  intros G n vx w H N. destruct vx as [| | | | | |q]; cbn [ieee_rsqrt_special] in H; try (injection H as <-; reflexivity); try congruence.
  destruct (Qlt_le_dec q 0) as [L|L]; [|discriminate]. injection H as <-. unfold isqrt_scheme. cbn [test_nan test_inf test_negative test_zero orb].
  destruct (Qle_bool 0 q) eqn:E; [apply Qle_bool_iff in E; lra|]. reflexivity.
Qed.
(* minus zero, in any format: the branches meant for it come after a test
   which it passes *)
Theorem sqrt_minus_zero_refuted : forall G n, ieee_sqrt_special MZero = Some MZero /\ sqrt_scheme G n MZero = PZero.
Proof. intros. split; reflexivity. Qed.
Theorem isqrt_minus_zero_refuted : forall G n, ieee_rsqrt_special MZero = Some MInf /\ isqrt_scheme G n MZero = PInf.
Proof. intros. split; reflexivity. Qed.
(* the last branch of the two schemes is never taken *)
Theorem sqrt_last_branch_dead : forall G n vx, sqrt_scheme G n vx = MZero -> False.
Proof.
  intros G n vx. unfold sqrt_scheme. destruct vx as [| | | | | |q]; cbn [test_nan test_inf test_negative test_zero orb negb]; try discriminate.
  destruct (negb (Qle_bool 0 q)), (Qeq_bool q 0); cbn [orb negb]; discriminate.
Qed.
Theorem isqrt_last_branch_dead : forall G n vx, isqrt_scheme G n vx = MInf -> False.
Proof.
  intros G n vx. unfold isqrt_scheme. destruct vx as [| | | | | |q]; cbn [test_nan test_inf test_negative test_zero orb negb]; try discriminate.
  destruct (negb (Qle_bool 0 q)), (Qeq_bool q 0); cbn [orb negb]; discriminate.
Qed.

Example sqrt_special_nontrivial : sqrt_scheme ML_Binary32 3 (Num (-2)) = QNaN /\ sqrt_scheme ML_Binary32 3 PInf = PInf
  /\ isqrt_scheme ML_Binary64 3 PInf = PZero.
Proof. repeat split. Qed.
Example isqrt_nontrivial : (isqrt_num ML_Binary32 3 2 == 11863283 # 16777216)%Q
  /\ (Qabs (1 - 2 * (11863283 # 16777216) * (11863283 # 16777216)) <= (7 # 2) * p2 (-24))%Q.
Proof. split; [vm_compute; reflexivity|vm_compute; discriminate]. Qed.

Print Assumptions sqrt_binary32_correct.
Print Assumptions sqrt_binary64_correct.
Print Assumptions sqrt_before_rounding.
Print Assumptions sqrt_binary32_small_refuted.
Print Assumptions sqrt_binary64_small_refuted.
Print Assumptions isqrt_binary32_accurate.
Print Assumptions isqrt_binary64_accurate.
Print Assumptions isqrt_binary32_bound.
Print Assumptions isqrt_binary64_bound.
Print Assumptions isqrt_nearest_refuted.
Print Assumptions sqrt_special.
Print Assumptions isqrt_special.
Print Assumptions sqrt_minus_zero_refuted.
Print Assumptions isqrt_minus_zero_refuted.
Print Assumptions sqrt_last_branch_dead.
Print Assumptions isqrt_last_branch_dead.
Print Assumptions invsqrt_entry_nearest.
Print Assumptions invsqrt_seed_error.
