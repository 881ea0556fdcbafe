(* Comparisons of multi-limb numbers (C126). *)
From Coq Require Import ZArith QArith Qabs Qround Bool Lia Lqa.
From Verif Require Import QUtil FpFormatModel RoundSpec RoundProofs RoundRne LimbModel LimbRound LimbBounds Exp2Model MpcModel MpcSpec.
Open Scope Z_scope.

Lemma qcmp_holds : forall s a b, qcmp s a b = true <-> holds s a b.
Proof.
  intros s a b. destruct s; cbn [qcmp holds].
  - apply Qeq_bool_iff.
  - rewrite negb_true_iff. split; intro H.
    + apply Qeq_bool_neq. exact H.
    + apply not_true_iff_false. intro E. apply H. apply Qeq_bool_iff. exact E.
  - rewrite negb_true_iff, <- not_true_iff_false, Qle_bool_iff. split; [apply Qnot_le_lt|apply Qlt_not_le].
  - apply Qle_bool_iff.
  - rewrite negb_true_iff, <- not_true_iff_false, Qle_bool_iff. split; [apply Qnot_le_lt|apply Qlt_not_le].
  - apply Qle_bool_iff.
  - split; [discriminate|intros []].
Qed.

(* lexicographic comparison of two limbs, when the first ones order the sums *)
Lemma lex2 : forall s a b c d, s <> CSigned -> (a < c -> a + b < c + d)%Q -> (c < a -> c + d < a + b)%Q ->
  says (mp2_comparison qcmp s (a, b) (c, d)) (holds s (a + b) (c + d)).
Proof.
  intros s a b c d NS L1 L2. destruct s; try congruence; cbn [mp2_comparison strict_specifier]; eexists; (split; [reflexivity|]);
  rewrite ?orb_true_iff, ?andb_true_iff, !qcmp_holds; cbn [holds].
  - split; [intros [E1 E2]; lra|]. intro E. destruct (Q_dec a c) as [[X|X]|X]; [apply L1 in X; lra|apply L2 in X; lra|]. split; [exact X|lra].
  - split.
    + intros [N|N] E; apply N; destruct (Q_dec a c) as [[X|X]|X]; try (apply L1 in X; lra); try (apply L2 in X; lra); [exact X|lra].
    + intro N. destruct (Qeq_dec a c) as [X|X]; [right; intro Y; apply N; lra|left; exact X].
  - split; [intros [X|[X Y]]; [apply L1; exact X|lra]|]. intro H. destruct (Q_dec a c) as [[X|X]|X]; [left; exact X|apply L2 in X; lra|right; split; [exact X|lra]].
  - split; [intros [X|[X Y]]; [apply L1 in X; lra|lra]|]. intro H. destruct (Q_dec a c) as [[X|X]|X]; [left; exact X|apply L2 in X; lra|right; split; [exact X|lra]].
  - split; [intros [X|[X Y]]; [apply L2; exact X|lra]|]. intro H. destruct (Q_dec a c) as [[X|X]|X]; [apply L1 in X; lra|left; exact X|right; split; [exact X|lra]].
  - split; [intros [X|[X Y]]; [apply L2 in X; lra|lra]|]. intro H. destruct (Q_dec a c) as [[X|X]|X]; [apply L1 in X; lra|left; exact X|right; split; [exact X|lra]].
Qed.

(* comparing the low parts as a pair: three limbs are a limb and a pair *)
Lemma mp3_nested : forall O s cl cr x y, s <> CSigned ->
  let '(a, m, l) := renormalize O cl x in let '(c, n, k) := renormalize O cr y in
  mp3_comparison O qcmp s cl cr x y =
  match s with
  | CEq => option_map (andb (qcmp CEq a c)) (mp2_comparison qcmp s (m, l) (n, k))
  | CNe => option_map (orb (qcmp CNe a c)) (mp2_comparison qcmp s (m, l) (n, k))
  | _ => option_map (fun t => orb (qcmp (strict_specifier s) a c) (andb (qcmp CEq a c) t)) (mp2_comparison qcmp s (m, l) (n, k))
  end.
Proof.
  intros O s cl cr x y NS. destruct (renormalize O cl x) as [[a m] l] eqn:E1. destruct (renormalize O cr y) as [[c n] k] eqn:E2.
  unfold mp3_comparison. rewrite E1, E2. destruct s; try congruence; reflexivity.
Qed.

Lemma lex3 : forall O s cl cr x y, s <> CSigned ->
  let '(a, m, l) := renormalize O cl x in let '(c, n, k) := renormalize O cr y in
  (a < c -> a + m + l < c + n + k)%Q -> (c < a -> c + n + k < a + m + l)%Q ->
  (m < n -> m + l < n + k)%Q -> (n < m -> n + k < m + l)%Q ->
  says (mp3_comparison O qcmp s cl cr x y) (holds s (a + m + l) (c + n + k)).
Proof.
  intros O s cl cr x y NS. pose proof (mp3_nested O s cl cr x y NS) as N.
  destruct (renormalize O cl x) as [[a m] l]. destruct (renormalize O cr y) as [[c n] k]. intros A1 A2 M1 M2.
  destruct (lex2 s m l n k NS M1 M2) as (b & B1 & B2). rewrite N, B1.
  destruct s; try congruence; cbn [option_map strict_specifier holds] in *; eexists; (split; [reflexivity|]);
  rewrite ?orb_true_iff, ?andb_true_iff, B2, !qcmp_holds; cbn [holds].
  - split; [intros [E1 E2]; lra|]. intro E. destruct (Q_dec a c) as [[X|X]|X]; [apply A1 in X; lra|apply A2 in X; lra|]. split; [exact X|lra].
  - split.
    + intros [N'|N'] E; apply N'; destruct (Q_dec a c) as [[X|X]|X]; try (apply A1 in X; lra); try (apply A2 in X; lra); [exact X|lra].
    + intro N'. destruct (Qeq_dec a c) as [X|X]; [right; intro Y; apply N'; lra|left; exact X].
  - split; [intros [X|[X Y]]; [apply A1; exact X|lra]|]. intro H. destruct (Q_dec a c) as [[X|X]|X]; [left; exact X|apply A2 in X; lra|right; split; [exact X|lra]].
  - split; [intros [X|[X Y]]; [apply A1 in X; lra|lra]|]. intro H. destruct (Q_dec a c) as [[X|X]|X]; [left; exact X|apply A2 in X; lra|right; split; [exact X|lra]].
  - split; [intros [X|[X Y]]; [apply A2; exact X|lra]|]. intro H. destruct (Q_dec a c) as [[X|X]|X]; [apply A1 in X; lra|left; exact X|right; split; [exact X|lra]].
  - split; [intros [X|[X Y]]; [apply A2 in X; lra|lra]|]. intro H. destruct (Q_dec a c) as [[X|X]|X]; [apply A1 in X; lra|left; exact X|right; split; [exact X|lra]].
Qed.

Section Finite.
Variable F : fmt.
Hypothesis Hp : 3 <= prec F.
Variable rnd : Q -> Q.
Hypothesis Hr : nearest_in F rnd.
Notation O := (rounded_ops rnd).
Notation u := (p2 (- prec F)).

(* distinct roundings order what is rounded *)
Lemma rnd_order : forall v w, (rnd v < rnd w -> v < w)%Q.
Proof. intros v w H. destruct (Qlt_le_dec v w) as [L|L]; [exact L|]. pose proof (rnd_mono F rnd Hr _ _ L). lra. Qed.

(* two limbs: right on all canonical numbers *)
Theorem mp2_comparison_correct : forall s x y, s <> CSigned -> canonical2 rnd x -> canonical2 rnd y ->
  says (mp2_comparison qcmp s x y) (holds s (sum2 x) (sum2 y)).
Proof.
  intros s [a b] [c d] NS C1 C2. unfold canonical2, sum2 in *. cbn [fst snd] in *.
  apply lex2; [exact NS| |]; intro L; apply rnd_order; lra.
Qed.

(* three limbs: right as soon as the renormalized operands are canonical *)
Theorem mp3_comparison_correct : forall s cl cr x y, s <> CSigned ->
  canonical3 rnd (renormalize O cl x) -> canonical3 rnd (renormalize O cr y) ->
  says (mp3_comparison O qcmp s cl cr x y) (holds s (sum3 (renormalize O cl x)) (sum3 (renormalize O cr y))).
Proof.
  intros s cl cr x y NS C1 C2. pose proof (lex3 O s cl cr x y NS) as L.
  destruct (renormalize O cl x) as [[a m] l]. destruct (renormalize O cr y) as [[c n] k].
  unfold canonical3, sum3 in *. cbn [fst snd] in *. destruct C1 as [A1 A2]. destruct C2 as [B1 B2].
  apply L; intro X; apply rnd_order; lra.
Qed.

Lemma norm_facts : forall xh xm xl, inF F xh -> inF F xm -> inF F xl ->
  exists rh rm rl, normalize_33 O xh xm xl = (rh, rm, rl) /\ (rh + rm + rl == xh + xm + xl)%Q /\
    (rh == rnd (xh + rnd (xm + xl)))%Q /\ (rm == rnd (rm + rl))%Q.
Proof.
  intros xh xm xl H1 H2 H3. pose proof (normalize_33_exact F Hp rnd Hr xh xm xl H1 H2 H3) as E.
  destruct (normalize_33 O xh xm xl) as [[rh rm] rl] eqn:N. exists rh, rm, rl. destruct E as (E1 & _ & _ & _ & E2).
  split; [reflexivity|]. split; [exact E1|]. split; [|exact E2].
  unfold normalize_33, add211 in N. cbn in N. injection N as <- _ _. reflexivity.
Qed.

(* renormalization keeps the value *)
Theorem renormalize_value : forall cst x, inF3 F x -> (sum3 (renormalize O cst x) == sum3 x)%Q.
Proof.
  intros cst [[h m] l] (H1 & H2 & H3). destruct cst; [reflexivity|]. cbn [fst snd] in *.
  destruct (norm_facts h m l H1 H2 H3) as (rh & rm & rl & N & E & _). cbn [renormalize]. rewrite N. exact E.
Qed.
(* it is canonical exactly when adding the low limbs first makes no difference *)
Theorem renormalize_canonical : forall x, inF3 F x ->
  canonical3 rnd (renormalize O false x) <->
  (rnd (fst (fst x) + rnd (snd (fst x) + snd x)) == rnd (sum3 x))%Q.
Proof.
  intros [[h m] l] (H1 & H2 & H3). cbn [fst snd] in *. destruct (norm_facts h m l H1 H2 H3) as (rh & rm & rl & N & E & Eh & Em).
  cbn [renormalize]. rewrite N. unfold canonical3, sum3. cbn [fst snd].
  assert (X : (rnd (rh + rm + rl) == rnd (h + m + l))%Q) by (apply (rnd_comp F rnd Hr); exact E).
  split; [intros [A _]; lra|]. intro A. split; [lra|exact Em].
Qed.
(* for instance if the two low limbs add up to a limb *)
Theorem mp3_comparison_two_limbs : forall s x y, s <> CSigned -> inF3 F x -> inF3 F y ->
  inF F (snd (fst x) + snd x) -> inF F (snd (fst y) + snd y) ->
  says (mp3_comparison O qcmp s false false x y) (holds s (sum3 x) (sum3 y)).
Proof.
  intros s x y NS Hx Hy Lx Ly.
  assert (K : forall z, inF3 F z -> inF F (snd (fst z) + snd z) -> canonical3 rnd (renormalize O false z)).
  { intros z Hz Lz. apply renormalize_canonical; [exact Hz|]. apply (rnd_comp F rnd Hr). pose proof (rnd_id F rnd Hr _ Lz). unfold sum3. lra. }
  destruct (mp3_comparison_correct s false false x y NS (K x Hx Lx) (K y Hy Ly)) as (b & B1 & B2). exists b. split; [exact B1|].
  rewrite B2. pose proof (renormalize_value false x Hx) as V1. pose proof (renormalize_value false y Hy) as V2.
  destruct s; try congruence; cbn [holds]; rewrite V1, V2; reflexivity.
Qed.

(* otherwise the answer is right unless the numbers are very close *)
Theorem mp3_comparison_far : forall s x y, s <> CSigned -> inF3 F x -> inF3 F y ->
  (u * (Qabs (snd (fst x) + snd x) + Qabs (snd (fst y) + snd y)) < Qabs (sum3 x - sum3 y))%Q ->
  says (mp3_comparison O qcmp s false false x y) (holds s (sum3 x) (sum3 y)).
Proof.
  intros s [[xh xm] xl] [[yh ym] yl] NS Hx Hy D. pose proof Hx as (H1 & H2 & H3). pose proof Hy as (K1 & K2 & K3). cbn [fst snd] in *.
  destruct (norm_facts xh xm xl H1 H2 H3) as (a & m & l & N & E & Eh & Em).
  destruct (norm_facts yh ym yl K1 K2 K3) as (c & n & k & N' & E' & Eh' & Em').
  pose proof (lex3 O s false false (xh, xm, xl) (yh, ym, yl) NS) as L. cbn [renormalize] in L. rewrite N, N' in L.
  unfold sum3 in *. cbn [fst snd] in *.
  assert (R : forall p q, inF F p -> inF F q -> (Qabs (rnd (p + q) - (p + q)) <= u * Qabs (p + q))%Q).
  { intros p q Hpp Hq. apply (sum_rel F ltac:(lia) rnd Hr p q Hpp Hq). }
  pose proof (R _ _ H2 H3) as R1. pose proof (R _ _ K2 K3) as R2.
  rewrite Qmult_plus_distr_r in D. apply Qabs_Qle_condition in R1. apply Qabs_Qle_condition in R2. destruct R1 as [R1 R1']. destruct R2 as [R2 R2'].
  assert (G : says (mp3_comparison O qcmp s false false (xh, xm, xl) (yh, ym, yl)) (holds s (a + m + l) (c + n + k))).
  { apply L.
    - intro X. rewrite Eh, Eh' in X. apply rnd_order in X.
      destruct (Qlt_le_dec (a + m + l) (c + n + k)) as [Y|Y]; [exact Y|]. rewrite (Qabs_pos (xh + xm + xl - (yh + ym + yl))) in D by lra. lra.
    - intro X. rewrite Eh, Eh' in X. apply rnd_order in X.
      destruct (Qlt_le_dec (c + n + k) (a + m + l)) as [Y|Y]; [exact Y|]. rewrite (Qabs_neg (xh + xm + xl - (yh + ym + yl))) in D by lra. lra.
    - intro X. rewrite Em, Em' in X. apply rnd_order in X. exact X.
    - intro X. rewrite Em, Em' in X. apply rnd_order in X. exact X. }
  destruct G as (b & B1 & B2). exists b. split; [exact B1|]. rewrite B2. destruct s; try congruence; cbn [holds]; rewrite E, E'; reflexivity.
Qed.
(* numbers said equal are *)
Theorem mp3_equal_sound : forall x y, inF3 F x -> inF3 F y ->
  mp3_comparison O qcmp CEq false false x y = Some true -> (sum3 x == sum3 y)%Q.
Proof.
  intros x y Hx Hy H. pose proof (renormalize_value false x Hx) as V1. pose proof (renormalize_value false y Hy) as V2.
  unfold mp3_comparison in H. destruct (renormalize O false x) as [[a m] l]. destruct (renormalize O false y) as [[c n] k].
  apply (f_equal (fun o => match o with Some t => t | None => false end)) in H. cbn [qcmp] in H. rewrite !andb_true_iff, !Qeq_bool_iff in H. unfold sum3 in V1 at 1, V2 at 1. cbn [fst snd] in *.
  destruct H as (A & B & C). lra.
Qed.

(* absolute value of a number whose first limb is the largest *)
Theorem mp2_abs_correct : forall x, (Qabs (snd x) <= Qabs (fst x))%Q -> (sum2 (mp2_abs O qcmp 0%Q Qabs x) == Qabs (sum2 x))%Q.
Proof.
  intros [h l] H. cbn [fst snd] in H. unfold mp2_abs, sum2. cbn [fst snd qcmp].
  pose proof (Qle_Qabs l) as L1. pose proof (Qle_Qabs (- l)) as L2. rewrite Qabs_opp in L2.
  destruct (Qle_bool 0 h) eqn:G.
  - apply Qle_bool_iff in G. rewrite (Qabs_pos h G) in *. rewrite Qabs_pos by lra. reflexivity.
  - assert (G' : (h < 0)%Q) by (apply Qnot_le_lt; rewrite <- Qle_bool_iff; congruence).
    rewrite (Qabs_neg h) in * by lra. rewrite (Qabs_neg (h + l)) by lra. cbn [o_neg rounded_ops]. ring.
Qed.
Theorem canonical_abs : forall x, inF F (snd x) -> canonical2 rnd x -> (Qabs (snd x) <= Qabs (fst x + snd x))%Q /\ (sum2 (mp2_abs O qcmp 0%Q Qabs x) == Qabs (sum2 x))%Q.
Proof.
  intros [h l] Fl C. unfold canonical2 in C. cbn [fst snd] in *.
  pose proof (rnd_near F rnd Hr (h + l) 0 (inF_0 F ltac:(lia))) as N.
  assert (X : (rnd (h + l) - (h + l) == - l)%Q) by lra. rewrite X, Qabs_opp in N.
  assert (Y : (0 - (h + l) == - (h + l))%Q) by ring. rewrite Y, Qabs_opp in N. split; [exact N|].
  unfold mp2_abs, sum2. cbn [fst snd qcmp]. destruct (Qle_bool 0 h) eqn:G.
  - apply Qle_bool_iff in G. rewrite (Qabs_pos h G). destruct (Qlt_le_dec (h + l) 0) as [Z1|Z1].
    + rewrite (Qabs_neg (h + l)) in N by lra. rewrite (Qabs_neg l) in N by lra.
      assert (H0 : (h + l == l)%Q) by lra. pose proof (rnd_comp F rnd Hr _ _ H0) as R. pose proof (rnd_id F rnd Hr _ Fl). lra.
    + rewrite Qabs_pos by lra. reflexivity.
  - assert (G' : (h < 0)%Q) by (apply Qnot_le_lt; rewrite <- Qle_bool_iff; congruence).
    rewrite (Qabs_neg h) by lra. cbn [o_neg rounded_ops]. destruct (Qlt_le_dec (h + l) 0) as [Z1|Z1].
    + rewrite Qabs_neg by lra. ring.
    + rewrite (Qabs_pos (h + l)) in N by lra. rewrite (Qabs_pos l) in N by lra. lra.
Qed.
End Finite.

(* two limbs half a unit away from each other: same number, said distinct *)
Theorem mp2_comparison_ties_refuted : forall p e, 2 <= p ->
  let x := (p2 e, p2 (e - p)) in let y := (p2 e + p2 (e - p + 1), - p2 (e - p))%Q in
  inF (mkF p None) (fst x) /\ inF (mkF p None) (snd x) /\ inF (mkF p None) (fst y) /\ inF (mkF p None) (snd y) /\
  (sum2 x == sum2 y)%Q /\ mp2_comparison qcmp CEq x y = Some false /\ mp2_comparison qcmp CNe x y = Some true /\
  mp2_comparison qcmp CLt x y = Some true /\ mp2_comparison qcmp CGe x y = Some false.
Proof.
  intros p e Hp x y. set (F := mkF p None). assert (P1 : 1 <= prec F) by (cbn; lia).
  pose proof (p2_pos (e - p)) as P. pose proof (p2_succ (e - p)) as S1.
  assert (I : forall k, inF F (p2 k)).
  { intro k. exists 1, k. split; [change (inject_Z 1) with 1%Q; ring|]. split; [|exact I]. cbn [prec F]. pose proof (Z.pow_pos_nonneg 2 p). cbn. lia. }
  split; [apply I|]. split; [apply I|]. split.
  { exists (2 ^ (p - 1) + 1), (e - p + 1). cbn [fst y]. split.
    - rewrite inject_Z_plus. rewrite Qmult_plus_distr_l. rewrite p2_prec by lia. replace (p - 1 + (e - p + 1)) with e by lia. change (inject_Z 1) with 1%Q. ring.
    - split; [|exact Logic.I]. cbn [prec F]. assert (2 ^ p = 2 * 2 ^ (p - 1)) by (rewrite <- Z.pow_succ_r by lia; f_equal; lia).
      pose proof (Z.pow_pos_nonneg 2 (p - 1)). lia. }
  split; [apply (inF_opp F P1); apply I|].
  assert (NE : Qeq_bool (p2 e) (p2 e + p2 (e - p + 1)) = false) by (apply not_true_iff_false; rewrite Qeq_bool_iff; intro E; lra).
  assert (NE' : Qeq_bool (p2 (e - p)) (- p2 (e - p)) = false) by (apply not_true_iff_false; rewrite Qeq_bool_iff; intro E; lra).
  assert (LE : Qle_bool (p2 e + p2 (e - p + 1)) (p2 e) = false) by (apply not_true_iff_false; rewrite Qle_bool_iff; intro E; lra).
  assert (LE' : Qle_bool (p2 e) (p2 e + p2 (e - p + 1)) = true) by (rewrite Qle_bool_iff; lra).
  split; [unfold sum2; cbn [fst snd x y]; lra|].
  unfold x, y. cbn [mp2_comparison strict_specifier qcmp]. rewrite NE, LE, LE'. repeat split; reflexivity.
Qed.

(* three limbs, renormalized: even on numbers each limb of which is its sum with
   the next one rounded (normalization leaves them as they are) *)
Theorem mp3_comparison_refuted :
  let F := mkF 53 (Some (-1074)) in let O := rounded_ops (rne F) in
  let x := (1, p2 (-53), p2 (-106))%Q in let y := (1 + p2 (-52), p2 (-106) - p2 (-53), - p2 (-108))%Q in
  let z := (1 + p2 (-52), p2 (-106) - p2 (-53), 0)%Q in
  nearest_in F (rne F) /\ inF3 F x /\ inF3 F y /\ inF3 F z /\
  pairwise3 (rne F) x /\ pairwise3 (rne F) y /\ pairwise3 (rne F) z /\
  (sum3 y < sum3 x)%Q /\ mp3_comparison O qcmp CLt false false x y = Some true /\ mp3_comparison O qcmp CGe false false x y = Some false /\
  (sum3 z == sum3 x)%Q /\ mp3_comparison O qcmp CEq false false x z = Some false /\ mp3_comparison O qcmp CLt false false x z = Some true.
Proof.
  assert (K : forall m e, Z.abs m <= 2 ^ 53 -> -1074 <= e -> inF (mkF 53 (Some (-1074))) (inject_Z m * p2 e)).
  { intros m e Hm He. exists m, e. split; [reflexivity|]. split; [exact Hm|exact He]. }
  assert (K' : forall q m e, Z.abs m <= 2 ^ 53 -> -1074 <= e -> (inject_Z m * p2 e == q)%Q -> inF (mkF 53 (Some (-1074))) q).
  { intros q m e Hm He E. eapply inF_comp; [exact E|]. apply K; assumption. }
  cbv zeta. split; [apply rne_nearest; cbn; lia|]. unfold inF3. cbn [fst snd].
  assert (A1 : inF (mkF 53 (Some (-1074))) (1 + p2 (-52))) by (apply (K' _ (2 ^ 52 + 1) (-52)); [lia|lia|reflexivity]).
  assert (A2 : inF (mkF 53 (Some (-1074))) (p2 (-106) - p2 (-53))) by (apply (K' _ (1 - 2 ^ 53) (-106)); [lia|lia|reflexivity]).
  split; [split; [apply (K' _ 1 0); [lia|lia|reflexivity]|split; [apply (K' _ 1 (-53)); [lia|lia|reflexivity]|apply (K' _ 1 (-106)); [lia|lia|reflexivity]]]|].
  split; [split; [exact A1|split; [exact A2|apply (K' _ (-1) (-108)); [lia|lia|reflexivity]]]|].
  split; [split; [exact A1|split; [exact A2|apply (K' _ 0 0); [lia|lia|reflexivity]]]|].
  split; [split; vm_compute; reflexivity|]. split; [split; vm_compute; reflexivity|]. split; [split; vm_compute; reflexivity|].
  split; [vm_compute; reflexivity|]. split; [vm_compute; reflexivity|]. split; [vm_compute; reflexivity|].
  split; [vm_compute; reflexivity|]. split; vm_compute; reflexivity.
Qed.
(* unnormalized operands are not all made canonical *)
Theorem renormalize_refuted :
  let F := mkF 53 (Some (-1074)) in let O := rounded_ops (rne F) in
  let x := (1 # 2, 1 # 2, p2 (-53) + p2 (-100))%Q in let y := (1, p2 (-53), p2 (-100))%Q in
  (sum3 x == sum3 y)%Q /\ mp3_comparison O qcmp CEq false false x y = Some false /\ mp3_comparison O qcmp CLt false false x y = Some true /\
  canonical3 (rne F) (renormalize O false y) /\ ~ canonical3 (rne F) (renormalize O false x).
Proof.
  cbv zeta. split; [vm_compute; reflexivity|]. split; [vm_compute; reflexivity|]. split; [vm_compute; reflexivity|].
  split; [split; vm_compute; reflexivity|]. intros [C _]. revert C. vm_compute. discriminate.
Qed.

(* ---- data which are not numbers ---- *)
Definition unordered (s : cspec) : bool := match s with CNe => true | _ => false end.
Lemma fcmp_nan : forall s a b, f_isnan a = true \/ f_isnan b = true -> fcmp s a b = unordered s.
Proof. intros s a b [H|H]; unfold fcmp; rewrite H, ?orb_true_r; destruct s; reflexivity. Qed.

(* a NaN as first limb is unordered *)
Theorem mp2_comparison_nan : forall s x y, s <> CSigned -> f_isnan (fst x) = true \/ f_isnan (fst y) = true ->
  mp2_comparison fcmp s x y = Some (unordered s).
Proof.
  intros s [a b] [c d] NS H. cbn [fst] in H. destruct s; try congruence; cbn [mp2_comparison strict_specifier]; rewrite !(fcmp_nan _ a c H); reflexivity.
Qed.
Lemma add_nan : forall G a b, f_isnan a = true \/ f_isnan b = true -> f_isnan (f_add G a b) = true.
Proof. intros G a b [H|H]; [destruct a; try discriminate H; reflexivity|destruct b; try discriminate H; destruct a; reflexivity]. Qed.
Lemma norm_hi : forall G h m l, exists rm rl, normalize_33 (ieee_ops G) h m l = (f_add G h (f_add G m l), rm, rl).
Proof. intros. unfold normalize_33, add211. cbn. eexists. eexists. reflexivity. Qed.
Theorem mp3_comparison_nan : forall G s x y, s <> CSigned -> f_isnan (fst (fst x)) = true \/ f_isnan (fst (fst y)) = true ->
  mp3_comparison (ieee_ops G) fcmp s false false x y = Some (unordered s).
Proof.
  intros G s [[a m] l] [[c n] k] NS H. cbn [fst] in H. unfold mp3_comparison, renormalize.
  destruct (norm_hi G a m l) as (rm & rl & E1). destruct (norm_hi G c n k) as (rn & rk & E2). rewrite E1, E2.
  assert (H' : f_isnan (f_add G a (f_add G m l)) = true \/ f_isnan (f_add G c (f_add G n k)) = true).
  { destruct H as [H|H]; [left|right]; apply add_nan; left; exact H. }
  destruct s; try congruence; cbn [strict_specifier]; rewrite !(fcmp_nan _ _ _ H'); reflexivity.
Qed.

(* the error term of a sum with an infinity is a NaN *)
Lemma twosum_inf : forall G a b, a = PInf \/ a = MInf -> f_isnan (snd (twosum (ieee_ops G) a b)) = true.
Proof. intros G a b [->| ->]; destruct b; reflexivity. Qed.
Lemma norm_inf : forall G h m l, h = PInf \/ h = MInf -> exists rh rm rl, normalize_33 (ieee_ops G) h m l = (rh, rm, rl) /\ f_isnan rm = true.
Proof.
  intros G h m l H. unfold normalize_33, add211. destruct (twosum (ieee_ops G) m l) as [t1h t1l]. pose proof (twosum_inf G h t1h H) as T.
  destruct (twosum (ieee_ops G) h t1h) as [rh t2l]. cbn [snd] in T. unfold twosum. cbn [ieee_ops o_add o_sub].
  eexists. eexists. eexists. split; [reflexivity|]. apply add_nan. left. exact T.
Qed.
(* so an infinity differs from every number, itself included *)
Theorem mp3_infinity_refuted : forall G x y, fst (fst x) = PInf \/ fst (fst x) = MInf ->
  mp3_comparison (ieee_ops G) fcmp CEq false false x y = Some false /\
  mp3_comparison (ieee_ops G) fcmp CNe false false x y = Some true /\
  mp3_comparison (ieee_ops G) fcmp CLe false false x x = Some false /\
  mp3_comparison (ieee_ops G) fcmp CGe false false x x = Some false.
Proof.
  intros G [[a m] l] [[c n] k] H. cbn [fst] in H. unfold mp3_comparison, renormalize.
  destruct (norm_inf G a m l H) as (rh & rm & rl & E & N). rewrite E. destruct (normalize_33 (ieee_ops G) c n k) as [[c' n'] k'].
  rewrite !(fcmp_nan _ rm _ (or_introl N)). cbn [unordered strict_specifier]. rewrite !andb_false_r, !orb_true_r. cbn [orb].
  split; [reflexivity|]. split; [reflexivity|].
  assert (X : fcmp CLt rh rh = false /\ fcmp CGt rh rh = false).
  { unfold fcmp. destruct rh; cbn; try (split; reflexivity). assert (Y : Qle_bool q q = true) by (apply Qle_bool_iff; lra). rewrite Y. split; reflexivity. }
  destruct X as [X1 X2]. rewrite !andb_false_l, !orb_false_r || idtac. rewrite ?X1, ?X2, ?andb_false_r, ?andb_false_l. split; reflexivity.
Qed.
(* while constants and two limbs, which are not renormalized, are right *)
Theorem mp2_infinity : forall s l, s <> CSigned -> f_isnan l = false ->
  mp2_comparison fcmp s (PInf, l) (PInf, l) = Some (qcmp s 0 0) /\ mp2_comparison fcmp s (MInf, l) (MInf, l) = Some (qcmp s 0 0).
Proof.
  intros s l NS N. assert (X : forall t, t <> CSigned -> fcmp t l l = qcmp t 0 0).
  { intros t Ht. destruct l; try discriminate N; try reflexivity. unfold fcmp. cbn [f_isnan orb f_mag]. destruct t; cbn [qcmp]; try reflexivity;
    try (rewrite (proj2 (Qeq_bool_iff q q) (Qeq_refl q)); reflexivity); try (rewrite (proj2 (Qle_bool_iff q q) (Qle_refl q)); reflexivity). }
  destruct s; try congruence; cbn [mp2_comparison strict_specifier]; rewrite !X by discriminate; split; reflexivity.
Qed.

(* the test for NaN: says so of the infinity a block gives *)
Theorem mp2_isnan_sound : forall x, mp2_isnan f_isnan x = true <-> f_isnan (fst x) = true \/ f_isnan (snd x) = true.
Proof. intro x. apply orb_true_iff. Qed.
Theorem mp2_isnan_refuted : forall G b, f_isnan b = false -> b <> MInf ->
  fst (twosum (ieee_ops G) PInf b) = PInf /\ mp2_isnan f_isnan (twosum (ieee_ops G) PInf b) = true /\
  fst (fasttwosum (ieee_ops G) PInf b) = PInf /\ mp2_isnan f_isnan (fasttwosum (ieee_ops G) PInf b) = true.
Proof. intros G b N NI. destruct b; try discriminate N; try congruence; repeat split; reflexivity. Qed.

Example ex_mp2 : let F := mkF 53 None in canonical2 (rne F) (1, p2 (-60))%Q /\ canonical2 (rne F) (1, - p2 (-60))%Q /\
  mp2_comparison qcmp CLt (1, - p2 (-60))%Q (1, p2 (-60))%Q = Some true /\ mp2_comparison qcmp CGe (1, - p2 (-60))%Q (1, p2 (-60))%Q = Some false /\
  mp2_comparison qcmp CSigned (1, 0)%Q (1, 0)%Q = None.
Proof. cbv zeta. split; [vm_compute; reflexivity|]. split; [vm_compute; reflexivity|]. repeat split; vm_compute; reflexivity. Qed.
Example ex_mp3 : let F := mkF 53 None in let O := rounded_ops (rne F) in let x := (1, p2 (-54), p2 (-120))%Q in
  canonical3 (rne F) (renormalize O false x) /\ mp3_comparison O qcmp CEq false false x x = Some true /\
  mp3_comparison O qcmp CLt false false (1, p2 (-54), 0)%Q x = Some true.
Proof. cbv zeta. split; [split; vm_compute; reflexivity|]. split; vm_compute; reflexivity. Qed.
Example ex_far : (p2 (- 53) * (Qabs (p2 (-53) + p2 (-106)) + Qabs (p2 (-60) + 0)) < Qabs (sum3 (1, p2 (-53), p2 (-106)) - sum3 (1, p2 (-60), 0)))%Q.
Proof. vm_compute. reflexivity. Qed.
Example ex_abs : let O := rounded_ops (rne (mkF 53 None)) in mp2_abs O qcmp 0%Q Qabs (-1, p2 (-60))%Q = (1, - p2 (-60))%Q.
Proof. vm_compute. reflexivity. Qed.
Example ex_ieee : mp3_comparison (ieee_ops ML_Binary64) fcmp CEq false false (PInf, PZero, PZero) (PInf, PZero, PZero) = Some false /\
  mp3_comparison (ieee_ops ML_Binary64) fcmp CLt false false (Num 1, PZero, PZero) (PInf, PZero, PZero) = Some true /\
  mp3_comparison (ieee_ops ML_Binary64) fcmp CNe false false (QNaN, PZero, PZero) (Num 1, PZero, PZero) = Some true /\
  mp2_isnan f_isnan (Num 1, PZero) = false.
Proof. repeat split; vm_compute; reflexivity. Qed.

Print Assumptions mp2_comparison_correct.
Print Assumptions mp3_comparison_correct.
Print Assumptions renormalize_value.
Print Assumptions renormalize_canonical.
Print Assumptions mp3_comparison_two_limbs.
Print Assumptions mp3_comparison_far.
Print Assumptions mp3_equal_sound.
Print Assumptions mp2_abs_correct.
Print Assumptions canonical_abs.
Print Assumptions mp2_comparison_ties_refuted.
Print Assumptions mp3_comparison_refuted.
Print Assumptions renormalize_refuted.
Print Assumptions mp2_comparison_nan.
Print Assumptions mp3_comparison_nan.
Print Assumptions mp3_infinity_refuted.
Print Assumptions mp2_infinity.
Print Assumptions mp2_isnan_sound.
Print Assumptions mp2_isnan_refuted.
