(* The exceptional operands of the square root (SqrtCore.exceptions), decided
   by running the model on dyadic numbers. *)
From Coq Require Import ZArith QArith Qround Qabs List Bool Lia.
From Verif Require Import QUtil RoundSpec RoundProofs RoundRne SqrtModel SqrtCore SqrtProofs.
From Coq Require Import Lqa.
Open Scope Z_scope.

(* ---- dyadic numbers m * 2^e ---- *)
Definition dy := (Z * Z)%type.
Definition val (d : dy) : Q := (inject_Z (fst d) * p2 (snd d))%Q.
Definition dmul (a b : dy) : dy := (fst a * fst b, snd a + snd b).
Definition dopp (a : dy) : dy := (- fst a, snd a).
Definition dadd (a b : dy) : dy :=
  if snd a <=? snd b then (fst a + Z.shiftl (fst b) (snd b - snd a), snd a)
  else (Z.shiftl (fst a) (snd a - snd b) + fst b, snd b).
Definition drnd (F : fmt) (a : dy) : dy :=
  if fst a =? 0 then (0, 0)
  else
    let e := Z.log2 (Z.abs (fst a)) + snd a - prec F + 1 in
    let e := match emin F with None => e | Some k => Z.max e k end in
    let t := e - snd a in
    if t <=? 0 then a
    else
      let fl := Z.shiftr (fst a) t in
      let r := fst a - Z.shiftl fl t in
      let half := Z.shiftl 1 (t - 1) in
      (match Z.compare r half with
       | Lt => fl | Gt => fl + 1 | Eq => if Z.even fl then fl else fl + 1 end, e).

Lemma val_mul : forall a b, (val (dmul a b) == val a * val b)%Q.
Proof. intros [m e] [n f]. unfold val, dmul. cbn [fst snd]. rewrite inject_Z_mult, p2_plus. ring. Qed.
Lemma val_opp : forall a, (val (dopp a) == - val a)%Q.
Proof. intros [m e]. unfold val, dopp. cbn [fst snd]. rewrite inject_Z_opp. ring. Qed.
Lemma shl_val : forall m k e, 0 <= k -> (inject_Z (Z.shiftl m k) * p2 e == inject_Z m * p2 (e + k))%Q.
Proof.
  intros m k e Hk. rewrite Z.shiftl_mul_pow2 by auto. rewrite inject_Z_mult, <- Qmult_assoc, p2_prec by auto.
  rewrite Z.add_comm. reflexivity.
Qed.
Lemma val_add : forall a b, (val (dadd a b) == val a + val b)%Q.
Proof.
  intros [m e] [n f]. unfold val, dadd. cbn [fst snd]. destruct (Z.leb_spec e f); cbn [fst snd];
    rewrite inject_Z_plus, Qmult_plus_distr_l, shl_val by lia.
  - replace (e + (f - e)) with f by lia. reflexivity.
  - replace (f + (e - f)) with e by lia. reflexivity.
Qed.

Lemma qlog2_dy : forall m e, m <> 0 -> qlog2 (Qabs (inject_Z m * p2 e)) = Z.log2 (Z.abs m) + e.
Proof.
  intros m e Hm. pose proof (Z.log2_spec (Z.abs m) ltac:(lia)) as [L U].
  pose proof (Z.log2_nonneg (Z.abs m)) as Hn.
  assert (E : (Qabs (inject_Z m * p2 e) == inject_Z (Z.abs m) * p2 e)%Q).
  { rewrite Qabs_mul_pos by apply p2_pos. apply Qmult_comp; [|reflexivity]. reflexivity. }
  pose proof (p2_pos e) as Pe.
  apply qlog2_unique; rewrite E.
  - rewrite p2_plus, (p2_Z (Z.log2 (Z.abs m))) by auto. apply Qmult_le_compat_r; [|lra]. rewrite <- Zle_Qle. exact L.
  - replace (Z.log2 (Z.abs m) + e + 1) with (Z.succ (Z.log2 (Z.abs m)) + e) by lia.
    rewrite p2_plus, (p2_Z (Z.succ (Z.log2 (Z.abs m)))) by lia. apply Qmult_lt_compat_r; auto. rewrite <- Zlt_Qlt. exact U.
Qed.

Lemma qrne_dy : forall m t, 0 < t ->
  qrne (inject_Z m * p2 (- t)) =
  let fl := Z.shiftr m t in
  match Z.compare (m - Z.shiftl fl t) (Z.shiftl 1 (t - 1)) with
  | Lt => fl | Gt => fl + 1 | Eq => if Z.even fl then fl else fl + 1 end.
Proof.
  intros m t Ht. cbv zeta.
  assert (P : 0 < 2 ^ t) by (apply Z.pow_pos_nonneg; lia).
  assert (E : (inject_Z m * p2 (- t) == m # Z.to_pos (2 ^ t))%Q).
  { unfold p2. destruct (Z.leb_spec 0 (- t)); [lia|]. rewrite Z.opp_involutive.
    unfold Qeq, Qmult, inject_Z. cbn [Qnum Qden]. rewrite Pos.mul_1_l. ring. }
  rewrite (qrne_comp _ _ E). unfold qrne. cbn [Qfloor].
  rewrite Z2Pos.id by auto. rewrite Z.shiftr_div_pow2, Z.shiftl_mul_pow2, Z.shiftl_mul_pow2 by lia.
  set (fl := m / 2 ^ t).
  assert (C : Qcompare ((m # Z.to_pos (2 ^ t)) - inject_Z fl) (1 # 2) = Z.compare (m - fl * 2 ^ t) (1 * 2 ^ (t - 1))).
  { rewrite Z.mul_1_l. unfold Qcompare. cbn [Qnum Qden Qminus Qplus Qopp inject_Z]. rewrite Pos.mul_1_r.
    rewrite Z.mul_1_r, !Z2Pos.id by auto.
    replace (2 ^ t) with (2 * 2 ^ (t - 1)) by (rewrite <- Z.pow_succ_r by lia; f_equal; lia).
    set (w := 2 ^ (t - 1)).
    destruct (Z.compare_spec (m - fl * (2 * w)) w) as [H|H|H].
    - apply Z.compare_eq_iff. lia.
    - apply Z.compare_lt_iff. lia.
    - apply Z.compare_gt_iff. lia. }
  rewrite C. reflexivity.
Qed.

Lemma val_rnd : forall F a, (val (drnd F a) == rne F (val a))%Q.
Proof.
  intros F [m e]. unfold drnd. cbn [fst snd]. destruct (Z.eqb_spec m 0) as [->|Hm].
  { unfold rne, val. cbn [fst snd]. assert (Qeq_bool (inject_Z 0 * p2 e) 0 = true) as H by (apply Qeq_bool_iff; change (inject_Z 0) with 0%Q; ring).
    rewrite H. reflexivity. }
  cbv zeta. unfold rne.
  assert (V0 : Qeq_bool (val (m, e)) 0 = false).
  { destruct (Qeq_bool (val (m, e)) 0) eqn:H; auto. apply Qeq_bool_iff in H. unfold val in H. cbn [fst snd] in H.
    apply Qmult_integral in H. destruct H as [H|H]; [|exfalso; apply (p2_nz e H)].
    exfalso. apply Hm. change 0%Q with (inject_Z 0) in H. exact (proj1 (inject_Z_injective m 0) H). }
  rewrite V0. set (ee := match emin F with None => _ | Some k => _ end).
  assert (Er : rexp F (val (m, e)) = ee).
  { unfold rexp, val, ee. cbn [fst snd]. rewrite qlog2_dy by auto. reflexivity. }
  rewrite Er.
  assert (D : (val (m, e) / p2 ee == inject_Z m * p2 (- (ee - e)))%Q).
  { unfold val. cbn [fst snd]. replace (- (ee - e)) with (e + - ee) by lia. rewrite p2_plus.
    pose proof (p2_opp ee) as Ho. unfold Qdiv.
    assert (/ p2 ee == p2 (- ee))%Q as Hi.
    { setoid_replace (/ p2 ee)%Q with (p2 (- ee) * p2 ee * / p2 ee)%Q by (rewrite Ho; ring). field. apply p2_nz. }
    rewrite Hi. ring. }
  rewrite (qrne_comp _ _ D).
  destruct (Z.leb_spec (ee - e) 0) as [L|G].
  - assert (I : (inject_Z m * p2 (- (ee - e)) == inject_Z (m * 2 ^ (e - ee)))%Q).
    { rewrite inject_Z_mult. replace (- (ee - e)) with (e - ee) by lia. rewrite p2_Z by lia. reflexivity. }
    rewrite (qrne_int _ _ I). unfold val. cbn [fst snd].
    rewrite inject_Z_mult, <- Qmult_assoc, p2_prec by lia. replace (e - ee + ee) with e by lia. reflexivity.
  - rewrite qrne_dy by auto. reflexivity.
Qed.

(* ---- the computation on dyadic numbers ---- *)
Section D.
Variables (F : fmt) (rnd : Q -> Q).
Hypothesis morph : forall x y, (x == y)%Q -> (rnd x == rnd y)%Q.
Hypothesis Hd : forall a, (val (drnd F a) == rnd (val a))%Q.
Notation "a * b" := (dmul a b). Notation "a + b" := (dadd a b). Notation "- a" := (dopp a).
Definition dhalf : dy := (1, -1).
Definition d_iteration (approx half_value : dy) : dy :=
  let square := drnd F (approx * approx) in
  let mult := drnd F (- half_value * square + dhalf) in
  drnd F (approx * mult + approx).
Definition d_correction (vx h y : dy) : dy :=
  let s := drnd F (vx * y) in
  let t5 := drnd F (y * h) in
  let hh := drnd F (dhalf * y) in
  let d := drnd F (- s * s + vx) in
  let t6 := drnd F (- t5 * y + dhalf) in
  let s1 := drnd F (d * hh + s) in
  let h1 := drnd F (t6 * hh + hh) in
  let d1 := drnd F (- s1 * s1 + vx) in
  let pr := drnd F (d1 * h1 + s1) in
  let d_last := drnd F (- pr * pr + vx) in
  drnd F (d_last * h1 + pr).
Lemma val_half : (val dhalf == 1 # 2)%Q. Proof. reflexivity. Qed.
Ltac step := eapply Qeq_trans; [apply Hd|]; apply morph; rewrite ?val_add, ?val_mul, ?val_opp, ?val_half.
Lemma d_iteration_val : forall a h y h', (val a == y)%Q -> (val h == h')%Q -> (val (d_iteration a h) == rsqrt_iteration rnd y h')%Q.
Proof.
  intros a h y h' Ea Eh. unfold d_iteration, rsqrt_iteration. cbv zeta.
  set (q := drnd F (a * a)). assert (Eq : (val q == rnd (y * y))%Q) by (unfold q; step; rewrite Ea; reflexivity).
  set (m := drnd F (- h * q + dhalf)).
  assert (Em : (val m == rnd (Qopp h' * rnd (y * y) + (1 # 2)))%Q) by (unfold m; step; rewrite Eh, Eq; reflexivity).
  step. rewrite Ea, Em. reflexivity.
Qed.
Lemma d_correction_val : forall v h a v' h' y, (val v == v')%Q -> (val h == h')%Q -> (val a == y)%Q ->
  (val (d_correction v h a) == sqrt_correction rnd v' h' y)%Q.
Proof.
  intros v h a v' h' y Ev Eh Ea. unfold d_correction, sqrt_correction. cbv zeta.
  set (s := drnd F (v * a)). set (s' := rnd (v' * y)). assert (Es : (val s == s')%Q) by (unfold s, s'; step; rewrite Ev, Ea; reflexivity). clearbody s s'.
  set (t := drnd F (a * h)). set (t' := rnd (y * h')). assert (Et : (val t == t')%Q) by (unfold t, t'; step; rewrite Eh, Ea; reflexivity). clearbody t t'.
  set (g := drnd F (dhalf * a)). set (g' := rnd ((1 # 2) * y)). assert (Eg : (val g == g')%Q) by (unfold g, g'; step; rewrite Ea; reflexivity). clearbody g g'.
  set (d := drnd F (- s * s + v)). set (d' := rnd (Qopp s' * s' + v')). assert (Ed : (val d == d')%Q) by (unfold d, d'; step; rewrite Es, Ev; reflexivity). clearbody d d'.
  set (t6 := drnd F (- t * a + dhalf)). set (t6' := rnd (Qopp t' * y + (1 # 2))). assert (E6 : (val t6 == t6')%Q) by (unfold t6, t6'; step; rewrite Et, Ea; reflexivity). clearbody t6 t6'.
  set (s1 := drnd F (d * g + s)). set (s1' := rnd (d' * g' + s')). assert (Es1 : (val s1 == s1')%Q) by (unfold s1, s1'; step; rewrite Ed, Eg, Es; reflexivity). clearbody s1 s1'.
  set (h1 := drnd F (t6 * g + g)). set (h1' := rnd (t6' * g' + g')). assert (Eh1 : (val h1 == h1')%Q) by (unfold h1, h1'; step; rewrite E6, Eg; reflexivity). clearbody h1 h1'.
  set (d1 := drnd F (- s1 * s1 + v)). set (d1' := rnd (Qopp s1' * s1' + v')). assert (Ed1 : (val d1 == d1')%Q) by (unfold d1, d1'; step; rewrite Es1, Ev; reflexivity). clearbody d1 d1'.
  set (pr := drnd F (d1 * h1 + s1)). set (pr' := rnd (d1' * h1' + s1')). assert (Ep : (val pr == pr')%Q) by (unfold pr, pr'; step; rewrite Ed1, Eh1, Es1; reflexivity). clearbody pr pr'.
  set (dl := drnd F (- pr * pr + v)). set (dl' := rnd (Qopp pr' * pr' + v')). assert (El : (val dl == dl')%Q) by (unfold dl, dl'; step; rewrite Ep, Ev; reflexivity). clearbody dl dl'.
  step. rewrite El, Eh1, Ep. reflexivity.
Qed.
End D.

(* a rational whose denominator is a power of two *)
Fixpoint pow2_den (d : positive) : option Z :=
  match d with xH => Some 0 | xO d' => option_map Z.succ (pow2_den d') | xI _ => None end.
Definition to_dy (x : Q) : option dy :=
  match pow2_den (Qden x) with Some k => Some (Qnum x, - k) | None => None end.
Lemma pow2_den_spec : forall d k, pow2_den d = Some k -> 0 <= k /\ Zpos d = 2 ^ k.
Proof.
  induction d as [d IH|d IH|]; intros k H; cbn [pow2_den] in H; try discriminate.
  - destruct (pow2_den d) as [j|]; [|discriminate]. cbn [option_map] in H. injection H as <-.
    destruct (IH j eq_refl) as [H1 H2]. split; [lia|]. rewrite Z.pow_succ_r by auto. lia.
  - injection H as <-. split; [lia|reflexivity].
Qed.
Lemma to_dy_val : forall x d, to_dy x = Some d -> (val d == x)%Q.
Proof.
  intros [n d] a H. unfold to_dy in H. cbn [Qnum Qden] in H. destruct (pow2_den d) as [k|] eqn:E; [|discriminate].
  injection H as <-. destruct (pow2_den_spec _ _ E) as [Hk Hd]. unfold val. cbn [fst snd].
  assert (p2 (- k) == 1 # d)%Q as H.
  { unfold p2. destruct (Z.leb_spec 0 (- k)).
    - assert (k = 0) by lia. subst k. rewrite Z.pow_0_r in Hd. injection Hd as ->. reflexivity.
    - rewrite Z.opp_involutive, <- Hd. reflexivity. }
  rewrite H. unfold Qeq, Qmult, inject_Z. cbn [Qnum Qden]. rewrite Pos.mul_1_l. ring.
Qed.

(* ---- the decision, with the iterations shared ---- *)
Definition guard (p M : Z) : bool :=
  (2 ^ (p - 1) <=? M) && (M <=? 2 ^ (p + 1) - 2) && ((M <? 2 ^ p) || Z.even M).
(* R, a multiple k of 2^(j+1-p), is the nearest to the square root *)
Definition root_ok (p j M : Z) (R : dy) : bool :=
  let t := snd R - (j + 1 - p) in
  let k := if 0 <=? t then Z.shiftl (fst R) t else Z.shiftr (fst R) (- t) in
  ((0 <=? t) || (Z.shiftl k (- t) =? fst R)) && (2 ^ (p - 1) <=? k) && (k <=? 2 ^ p)
  && ((2 * k - 1) * (2 * k - 1) <=? M * 2 ^ (p + 1)) && (M * 2 ^ (p + 1) <=? (2 * k + 1) * (2 * k + 1)).
Definition deq (a b : dy) : bool := fst (dadd a (dopp b)) =? 0.
Lemma deq_val : forall a b, deq a b = true -> (val a == val b)%Q.
Proof.
  intros a b H. apply Z.eqb_eq in H. pose proof (val_add a (dopp b)) as E. rewrite val_opp in E.
  unfold val at 1 in E. rewrite H in E. change (inject_Z 0) with 0%Q in E. lra.
Qed.
Lemma root_ok_sound : forall p j M R, root_ok p j M R = true ->
  exists k, (val R == inject_Z k * p2 (j + 1 - p))%Q /\ 2 ^ (p - 1) <= k <= 2 ^ p
    /\ (2 * k - 1) * (2 * k - 1) <= M * 2 ^ (p + 1) /\ M * 2 ^ (p + 1) <= (2 * k + 1) * (2 * k + 1).
Proof.
  intros p j M [m e] H. unfold root_ok in H. cbn [fst snd] in H. cbv zeta in H.
  set (w := j + 1 - p) in *. set (k := if 0 <=? e - w then _ else _) in *.
  repeat (apply andb_true_iff in H; destruct H as [H ?]).
  repeat match goal with H : (_ <=? _) = true |- _ => apply Z.leb_le in H end.
  exists k. split; [|lia]. unfold val. cbn [fst snd].
  destruct (Z.leb_spec 0 (e - w)).
  - unfold k. rewrite shl_val by lia. replace (w + (e - w)) with e by lia. reflexivity.
  - cbn [orb] in H. apply Z.eqb_eq in H. rewrite <- H. rewrite shl_val by lia.
    replace (e + - (e - w)) with w by lia. reflexivity.
Qed.

Section Chain.
Variables (p : Z) (F : fmt) (j M : Z) (v h : dy).
Fixpoint chain (prev y : dy) (k : nat) : bool :=
  (if guard p M then root_ok p j M (d_correction F v h y) else true) &&
  match k with
  | O => deq (d_iteration F y h) prev
  | S k' => chain y (d_iteration F y h) k'
  end.
Variable rnd : Q -> Q.
Hypothesis morph : forall x y, (x == y)%Q -> (rnd x == rnd y)%Q.
Hypothesis Hd : forall a, (val (drnd F a) == rnd (val a))%Q.
Lemma chain_ok : forall k prev y q v' h', chain prev y k = true -> (val y == q)%Q -> (val v == v')%Q -> (val h == h')%Q ->
  forall i, (i <= k)%nat -> guard p M = true ->
  exists k, (sqrt_correction rnd v' h' (rsqrt_iterations rnd q h' i) == inject_Z k * p2 (j + 1 - p))%Q /\ 2 ^ (p - 1) <= k <= 2 ^ p
    /\ (2 * k - 1) * (2 * k - 1) <= M * 2 ^ (p + 1) /\ M * 2 ^ (p + 1) <= (2 * k + 1) * (2 * k + 1).
Proof.
  induction k as [|k IH]; intros prev y q v' h' H Ey Ev Eh i Hi G; cbn [chain] in H; rewrite G in H; apply andb_true_iff in H; destruct H as [H1 H2].
  - replace i with O by lia. cbn [rsqrt_iterations]. destruct (root_ok_sound _ _ _ _ H1) as (z & Hz & Hz'). exists z. split; auto.
    rewrite <- Hz. symmetry. apply (d_correction_val F rnd morph Hd); auto.
  - destruct i as [|i].
    + cbn [rsqrt_iterations]. destruct (root_ok_sound _ _ _ _ H1) as (z & Hz & Hz'). exists z. split; auto.
      rewrite <- Hz. symmetry. apply (d_correction_val F rnd morph Hd); auto.
    + cbn [rsqrt_iterations]. apply (IH _ _ (rsqrt_iteration rnd q h') v' h' H2); auto; [|lia].
      apply (d_iteration_val F rnd morph Hd); auto.
Qed.
Lemma chain_cycle : forall k prev y q h', chain prev y (S k) = true -> (val y == q)%Q -> (val h == h')%Q ->
  (rsqrt_iterations rnd (rsqrt_iterations rnd q h' k) h' 2 == rsqrt_iterations rnd q h' k)%Q.
Proof.
  induction k as [|k IH]; intros prev y q h' H Ey Eh; cbn [chain] in H; apply andb_true_iff in H; destruct H as [_ H].
  - apply andb_true_iff in H. destruct H as [_ H]. apply deq_val in H. cbn [rsqrt_iterations].
    apply Qeq_trans with (val (d_iteration F (d_iteration F y h) h)); [symmetry|rewrite H; exact Ey].
    apply (d_iteration_val F rnd morph Hd); auto. apply (d_iteration_val F rnd morph Hd); auto.
  - cbn [rsqrt_iterations]. apply (IH y (d_iteration F y h)); auto. apply (d_iteration_val F rnd morph Hd); auto.
Qed.
End Chain.

Fixpoint d_iterations (F : fmt) (y h : dy) (n : nat) : dy :=
  match n with O => y | S k => d_iterations F (d_iteration F y h) h k end.
Lemma d_iterations_val : forall F rnd, (forall x y, (x == y)%Q -> (rnd x == rnd y)%Q) ->
  (forall a, (val (drnd F a) == rnd (val a))%Q) ->
  forall n a h y h', (val a == y)%Q -> (val h == h')%Q -> (val (d_iterations F a h n) == rsqrt_iterations rnd y h' n)%Q.
Proof.
  intros F rnd morph Hd. induction n as [|n IH]; intros a h y h' Ea Eh; cbn [d_iterations rsqrt_iterations]; auto.
  apply IH; auto. apply (d_iteration_val F rnd morph Hd); auto.
Qed.

Definition hard_M (p : Z) (F : fmt) (j : Z) (n0 d : nat) (M : Z) : bool :=
  let v := (M, 2 * j + 1 - p) in
  let h := drnd F (dmul dhalf v) in
  match to_dy (invsqrt_seed (fast F) p (val v)) with
  | Some s => let y := d_iterations F s h n0 in chain p F j M v h y y (S d)
  | None => false
  end.

(* decided for every number of iterations from n0 on: the reciprocal square root
   cycles with period 2 after n0 + d iterations *)
Lemma hard_sound0 : forall F fr p rnd j n0 d, nearest_in F rnd ->
  (forall x y, (x == y)%Q -> (rnd x == fr y)%Q) -> (forall a, (val (drnd F a) == rnd (val a))%Q) -> 1 <= p ->
  (forall M, In M (exceptions p) ->
     exists s, (val s == invsqrt_seed fr p (inject_Z M * p2 (2 * j + 1 - p)))%Q /\
       let v := (M, 2 * j + 1 - p) in let h := drnd F (dmul dhalf v) in
       let y := d_iterations F s h n0 in chain p F j M v h y y (S d) = true) ->
  forall n, (n0 <= n)%nat -> hard_ok p rnd j n.
Proof.
  intros F fr p rnd j n0 d Hr FM Hd Hp C n Hn M In HM HE. destruct (C M In) as (s & Es & K). cbv zeta in K.
  pose proof (rnd_comp F rnd Hr) as RM.
  set (v := (inject_Z M * p2 (2 * j + 1 - p))%Q) in *.
  assert (Pv : (0 < v)%Q).
  { apply Qmult_lt_0_compat; [|apply p2_pos]. change 0%Q with (inject_Z 0). rewrite <- Zlt_Qlt.
    pose proof (Z.pow_pos_nonneg 2 (p - 1)). lia. }
  assert (G : guard p M = true).
  { unfold guard. apply andb_true_iff. split; [apply andb_true_iff; split; apply Z.leb_le; lia|].
    apply orb_true_iff. destruct HE; [left; apply Z.ltb_lt; auto|right; auto]. }
  set (dv := (M, 2 * j + 1 - p)) in *. assert (Ev : (val dv == v)%Q) by reflexivity.
  set (dh := drnd F (dmul dhalf dv)) in *. set (h := rnd ((1 # 2) * v)%Q).
  assert (Eh : (val dh == h)%Q).
  { unfold dh, h. rewrite Hd. apply RM. rewrite val_mul, Ev. reflexivity. }
  assert (Es' : (val s == invsqrt_seed rnd p v)%Q).
  { rewrite Es. symmetry. apply (seed_comp _ _ FM); [exact Pv|reflexivity]. }
  set (sd := invsqrt_seed rnd p v) in *.
  set (dy0 := d_iterations F s dh n0) in *. set (y0 := rsqrt_iterations rnd sd h n0).
  assert (Ey : (val dy0 == y0)%Q) by (apply (d_iterations_val F rnd RM Hd); auto).
  assert (Run : forall m, run p rnd m v = sqrt_correction rnd v h (rsqrt_iterations rnd sd h m)) by reflexivity.
  assert (D : forall i, (i <= S d)%nat -> exists k,
    (sqrt_correction rnd v h (rsqrt_iterations rnd sd h (n0 + i)) == inject_Z k * p2 (j + 1 - p))%Q /\ 2 ^ (p - 1) <= k <= 2 ^ p
    /\ (2 * k - 1) * (2 * k - 1) <= M * 2 ^ (p + 1) /\ M * 2 ^ (p + 1) <= (2 * k + 1) * (2 * k + 1)).
  { intros i Hi. rewrite iterations_app. apply (chain_ok p F j M dv dh rnd RM Hd _ _ _ _ _ _ K Ey Ev Eh i Hi G). }
  pose proof (chain_cycle p F j M dv dh rnd RM Hd _ _ _ _ _ K Ey Eh) as Cy.
  rewrite Run. clear Run.
  destruct (Nat.le_gt_cases n (n0 + S d)) as [L|Gt].
  { destruct (D (n - n0)%nat ltac:(lia)) as (k & Hk). exists k. replace (n0 + (n - n0))%nat with n in Hk by lia. exact Hk. }
  set (y := rsqrt_iterations rnd y0 h d) in *.
  assert (It : rsqrt_iterations rnd sd h n = rsqrt_iterations rnd y h (n - (n0 + d))).
  { unfold y, y0. rewrite <- !iterations_app. f_equal. lia. }
  destruct (iterations_cycle F rnd Hr h y Cy (n - (n0 + d))) as [E|E].
  - destruct (D d ltac:(lia)) as (k & K1 & K2). exists k. split; [|exact K2]. rewrite <- K1.
    apply (correction_comp _ _ RM); try reflexivity. rewrite It, E. unfold y, y0. rewrite <- iterations_app. reflexivity.
  - destruct (D (S d) ltac:(lia)) as (k & K1 & K2). exists k. split; [|exact K2]. rewrite <- K1.
    apply (correction_comp _ _ RM); try reflexivity. rewrite It, E. unfold y, y0. rewrite <- !iterations_app.
    replace (n0 + (d + 1))%nat with (n0 + S d)%nat by lia. reflexivity.
Qed.

Lemma hard_sound : forall F p j n0 d, 1 <= prec F -> 1 <= p -> forallb (hard_M p F j n0 d) (exceptions p) = true ->
  forall n, (n0 <= n)%nat -> hard_ok p (rne F) j n.
Proof.
  intros F p j n0 d HF Hp H. apply (hard_sound0 F (fast F) p (rne F) j n0 d (rne_nearest F HF) (fast_morph F HF) (val_rnd F) Hp).
  rewrite forallb_forall in H. intros M HM. specialize (H M HM). unfold hard_M in H. cbv zeta in H.
  destruct (to_dy (invsqrt_seed (fast F) p (val (M, 2 * j + 1 - p)))) as [s|] eqn:E; [|discriminate H].
  exists s. split; [|exact H]. apply (to_dy_val _ _ E).
Qed.

(* ---- the exceptional cases, decided ---- *)
Lemma hard_inf_32 : forallb (hard_M 24 (mkF 24 None) 0 2 1) (exceptions 24) = true. Proof. vm_compute. reflexivity. Qed.
Lemma hard_62_32 : forallb (hard_M 24 (mkF 24 (Some (-149))) 62 2 1) (exceptions 24) = true. Proof. vm_compute. reflexivity. Qed.
Lemma hard_63_32 : forallb (hard_M 24 (mkF 24 (Some (-149))) 63 2 2) (exceptions 24) = true. Proof. vm_compute. reflexivity. Qed.
Lemma hard_inf_64 : forallb (hard_M 53 (mkF 53 None) 0 3 1) (exceptions 53) = true. Proof. vm_compute. reflexivity. Qed.
Lemma hard_510_64 : forallb (hard_M 53 (mkF 53 (Some (-1074))) 510 3 1) (exceptions 53) = true. Proof. vm_compute. reflexivity. Qed.
Lemma hard_511_64 : forallb (hard_M 53 (mkF 53 (Some (-1074))) 511 3 1) (exceptions 53) = true. Proof. vm_compute. reflexivity. Qed.
