(* Multi-limb numbers: comparison (C25), constants (C26), statements which do
   not hold, examples. *)
From Coq Require Import ZArith QArith Qround Qabs List Bool Lia Lqa Setoid ZArithRing.
From Verif Require Import QUtil FixedProps FpFormatModel RoundSpec RoundProofs RoundRne LimbModel LimbExact LimbRound LimbBounds.
Import ListNotations.
Open Scope Z_scope.

(* ------------------------------------------------------------------ *)
(* specification                                                        *)
(* ------------------------------------------------------------------ *)
Definition qsum (l : list Q) : Q := fold_right Qplus 0%Q l.

(* a multi-limb number is normalized when each limb is the rounding of what
   it and the following limbs add up to *)
Fixpoint normalized (rnd : Q -> Q) (l : list Q) : Prop :=
  match l with
  | [] => True
  | h :: t => (h == rnd (h + qsum t))%Q /\ normalized rnd t
  end.

Definition qgt (a b : Q) : bool := negb (Qle_bool a b).
Definition qge0 (a : Q) : bool := Qle_bool 0 a.

Lemma qgt_iff : forall a b, qgt a b = true <-> (b < a)%Q.
Proof.
  intros a b. unfold qgt. rewrite negb_true_iff. split; intros H.
  - apply Qle_bool_false; auto.
  - destruct (Qle_bool a b) eqn:E; auto. apply Qle_bool_iff in E. lra.
Qed.

(* ------------------------------------------------------------------ *)
(* C25                                                                  *)
(* ------------------------------------------------------------------ *)
Lemma gt_loop : forall l pgt peq,
  pred_gt_loop qgt Qeq_bool pgt peq l = pgt || (peq && pred_gt_loop qgt Qeq_bool false true l).
Proof.
  induction l as [|[a b] l IH]; intros pgt peq; cbn.
  - rewrite andb_false_r, orb_false_r. reflexivity.
  - rewrite IH. rewrite (IH (qgt a b)). destruct pgt, peq, (qgt a b), (Qeq_bool a b); reflexivity.
Qed.

Section Compare.
Variables (F : fmt) (rnd : Q -> Q).
Hypothesis Hr : nearest_in F rnd.

Lemma norm_head_lt : forall h t h' t', (h == rnd (h + qsum t))%Q -> (h' == rnd (h' + qsum t'))%Q -> (h' < h)%Q ->
  (h' + qsum t' < h + qsum t)%Q.
Proof.
  intros h t h' t' E E' L. destruct (Qlt_le_dec (h' + qsum t') (h + qsum t)) as [G|G]; auto.
  pose proof (rnd_mono F rnd Hr _ _ G). lra.
Qed.

Lemma lex_correct : forall l r, length l = length r -> normalized rnd l -> normalized rnd r ->
  (pred_gt_loop qgt Qeq_bool false true (combine l r) = true <-> (qsum r < qsum l)%Q).
Proof.
  induction l as [|a l IH]; destruct r as [|b r]; cbn [length]; intros L Nl Nr; try discriminate.
  - cbn. split; [discriminate|lra].
  - cbn [combine pred_gt_loop andb orb]. rewrite gt_loop. cbn [qsum fold_right]. destruct Nl as [E1 N1], Nr as [E2 N2].
    fold (qsum l) (qsum r). injection L as L. specialize (IH r L N1 N2).
    destruct (qgt a b) eqn:G; cbn [orb].
    + apply qgt_iff in G. split; auto. intros _. apply norm_head_lt; auto.
    + destruct (Qeq_bool a b) eqn:E; cbn [andb].
      * apply Qeq_bool_iff in E. rewrite IH. split; lra.
      * split; [discriminate|]. intros H. exfalso. apply Qeq_bool_neq in E.
        assert (~ (b < a)%Q) by (intros C; apply qgt_iff in C; congruence).
        assert (L' : (a < b)%Q) by (destruct (Qlt_le_dec a b); auto; exfalso; apply E; lra).
        pose proof (norm_head_lt _ _ _ _ E2 E1 L'). lra.
Qed.

(* the comparison predicate of Min and Max decides the order of the values *)
Theorem pred_gt_correct : forall l r, l <> [] -> length l = length r -> normalized rnd l -> normalized rnd r ->
  exists c, pred_gt qgt Qeq_bool l r = Some c /\ (c = true <-> (qsum r < qsum l)%Q).
Proof.
  intros l r NE L Nl Nr. destruct l as [|a l]; [congruence|]. destruct r as [|b r]; [discriminate|].
  exists (pred_gt_loop qgt Qeq_bool false true (combine (a :: l) (b :: r))). split; [|apply lex_correct; auto].
  reflexivity.
Qed.

Lemma select_fst : forall (A : Type) (l r : list A), length l = length r -> map (fun ab => fst ab) (combine l r) = l.
Proof. induction l; destruct r; cbn; intros; try discriminate; auto. injection H as H. f_equal; auto. Qed.
Lemma select_snd : forall (A : Type) (l r : list A), length l = length r -> map (fun ab => snd ab) (combine l r) = r.
Proof. induction l; destruct r; cbn; intros; try discriminate; auto. injection H as H. f_equal; auto. Qed.

Theorem expand_max_correct : forall l r, l <> [] -> length l = length r -> normalized rnd l -> normalized rnd r ->
  exists res, expand_max qgt Qeq_bool l r = Some res /\ (res = l \/ res = r)
  /\ (qsum l <= qsum res)%Q /\ (qsum r <= qsum res)%Q.
Proof.
  intros l r NE L Nl Nr. destruct (pred_gt_correct l r NE L Nl Nr) as (c & E & C).
  unfold expand_max. rewrite E. destruct c.
  - exists l. rewrite select_fst by auto. apply proj1 in C. specialize (C eq_refl). repeat split; auto; lra.
  - exists r. rewrite select_snd by auto. repeat split; auto; [|lra].
    destruct (Qlt_le_dec (qsum r) (qsum l)) as [H|H]; auto. apply C in H. discriminate.
Qed.

Theorem expand_min_correct : forall l r, l <> [] -> length l = length r -> normalized rnd l -> normalized rnd r ->
  exists res, expand_min qgt Qeq_bool l r = Some res /\ (res = l \/ res = r)
  /\ (qsum res <= qsum l)%Q /\ (qsum res <= qsum r)%Q.
Proof.
  intros l r NE L Nl Nr. destruct (pred_gt_correct l r NE L Nl Nr) as (c & E & C).
  unfold expand_min. rewrite E. destruct c.
  - exists r. rewrite select_snd by auto. apply proj1 in C. specialize (C eq_refl). repeat split; auto; lra.
  - exists l. rewrite select_fst by auto. repeat split; auto; [lra|].
    destruct (Qlt_le_dec (qsum r) (qsum l)) as [H|H]; [|auto]. apply C in H. discriminate.
Qed.

(* absolute value: the sign of a normalized number is the sign of its first
   limb *)
Lemma norm_zero : forall l, normalized rnd l -> (match l with [] => True | h :: _ => (h == 0)%Q end) -> (qsum l == 0)%Q.
Proof.
  induction l as [|h t IH]; intros N Z; [reflexivity|]. destruct N as [E N]. cbn. fold (qsum t).
  assert (Zt : (qsum t == 0)%Q).
  { apply IH; auto. destruct t as [|h' t']; auto. destruct N as [E' _].
    rewrite E'. rewrite Z in E at 1. symmetry. apply (Qeq_trans _ _ _ E). apply (rnd_comp F rnd Hr).
    cbn. fold (qsum t'). lra. }
  lra.
Qed.

Theorem expand_abs_correct : inF F 0 -> forall l, normalized rnd l ->
  (qsum (expand_abs (rounded_ops rnd) Qabs qge0 l) == Qabs (qsum l))%Q.
Proof.
  intros F0 l N. destruct l as [|h t]; [reflexivity|]. cbn [expand_abs qsum fold_right]. fold (qsum t).
  pose proof N as N'. destruct N' as [E _].
  unfold qge0. destruct (Qle_bool 0 h) eqn:G.
  - apply Qle_bool_iff in G. rewrite map_id. rewrite (Qabs_pos h G).
    assert (P : (0 <= h + qsum t)%Q).
    { destruct (Qlt_le_dec (h + qsum t) 0) as [C|C]; auto.
      pose proof (rnd_le_F F rnd Hr (h + qsum t) 0 F0 ltac:(lra)) as B.
      pose proof (norm_zero (h :: t) N ltac:(cbn; lra)) as Z. cbn in Z. fold (qsum t) in Z. lra. }
    fold (qsum t). rewrite Qabs_pos by auto. reflexivity.
  - apply Qle_bool_false in G.
    assert (P : (h + qsum t <= 0)%Q).
    { destruct (Qlt_le_dec 0 (h + qsum t)) as [C|C]; auto.
      pose proof (rnd_ge_F F rnd Hr (h + qsum t) 0 F0 ltac:(lra)) as B. lra. }
    rewrite (Qabs_neg h) by lra. rewrite (Qabs_neg (h + qsum t)) by auto.
    assert (S : (fold_right Qplus 0 (map (o_neg (rounded_ops rnd)) t) == - qsum t)%Q).
    { clear. induction t as [|a t IH]; cbn; [reflexivity|]. fold (qsum t). cbn in IH. rewrite IH. ring. }
    change (fun x : Q => o_neg (rounded_ops rnd) x) with (o_neg (rounded_ops rnd)). rewrite S. ring.
Qed.

End Compare.

(* on numbers which are not normalized the comparison looks at the wrong limb *)
Theorem expand_max_unnormalized_refuted :
  ~ (forall l r, l <> [] -> length l = length r -> exists res, expand_max qgt Qeq_bool l r = Some res /\ (qsum l <= qsum res)%Q).
Proof.
  intros H. destruct (H [1; 3]%Q [2; 0]%Q ltac:(discriminate) eq_refl) as (res & E & L).
  injection E as <-. cbn in L. lra.
Qed.

(* with operands of different numbers of limbs zip drops the last limbs *)
Theorem expand_max_mixed_lengths_refuted :
  ~ (forall l r, l <> [] -> r <> [] -> normalized (rne (mkF 24 None)) l -> normalized (rne (mkF 24 None)) r ->
     exists res, expand_max qgt Qeq_bool l r = Some res /\ (qsum l <= qsum res)%Q).
Proof.
  intros H. destruct (H [1; 1 # 33554432]%Q [1]%Q ltac:(discriminate) ltac:(discriminate)) as (res & E & L).
  - cbn [normalized qsum fold_right]. repeat split; vm_compute; reflexivity.
  - cbn [normalized qsum fold_right]. repeat split; vm_compute; reflexivity.
  - vm_compute in E. injection E as <-. vm_compute in L. apply L. reflexivity.
Qed.

Example compare_case :
  let r := rne (mkF 24 None) in
  let x := [1; 1 # 33554432]%Q in let y := [1; - (1 # 33554432)]%Q in
  normalized r x /\ normalized r y
  /\ expand_max qgt Qeq_bool x y = Some x /\ expand_max qgt Qeq_bool y x = Some x
  /\ expand_min qgt Qeq_bool x y = Some y
  /\ normalized r [-1; 1 # 33554432]%Q
  /\ expand_abs (rounded_ops r) Qabs qge0 [-1; 1 # 33554432]%Q = [1; - (1 # 33554432)]%Q.
Proof. cbn [normalized qsum fold_right]. repeat split; vm_compute; reflexivity. Qed.

(* ------------------------------------------------------------------ *)
(* C26                                                                  *)
(* ------------------------------------------------------------------ *)
Definition exact_q : ops Q := exact_ops Q Qplus Qmult Qminus Qopp.

Definition total_prec (Fs : list fmt) : Z := fold_right (fun F s => prec F + s) 0 Fs.

Lemma total_nonneg : forall Fs, Forall (fun F => 1 <= prec F) Fs -> 0 <= total_prec Fs.
Proof. unfold total_prec. induction 1; cbn [fold_right]; lia. Qed.

Theorem expand_cst_fits : forall Fs rs, Forall2 nearest_in Fs rs -> Forall (fun F => 1 <= prec F) Fs ->
  forall c e, Fs <> [] -> mult e c -> Forall (fun F => exp_ok F e) Fs -> (Qabs c <= p2 (total_prec Fs + e))%Q ->
  Forall2 inF Fs (expand_cst exact_q rs c) /\ (qsum (expand_cst exact_q rs c) == c)%Q.
Proof.
  induction 1 as [|F r Fs rs Hr Hrs IH]; intros HF c e NE M O B; [congruence|].
  inversion HF as [|? ? Hp HF']; subst. inversion O as [|? ? Ok O']; subst.
  cbn [expand_cst exact_q exact_ops o_sub].
  set (c' := (c - r c)%Q).
  assert (M' : mult e c') by (apply mult_minus; auto; apply (rnd_mult F Hp r Hr); auto).
  pose proof (total_nonneg Fs HF') as TN.
  assert (B' : (Qabs c' <= p2 (total_prec Fs + e - 1))%Q).
  { unfold c'. rewrite Qabs_Qminus. apply (rnd_half F Hp r Hr); [apply (exp_ok_le F e); auto; lia|].
    cbn in B. eapply Qle_trans; [exact B|]. apply p2_le. unfold total_prec. lia. }
  destruct Fs as [|G Gs].
  - inversion Hrs; subst. cbn [expand_cst]. split; [repeat constructor; apply (rnd_inF F r Hr)|].
    cbn. cbn in B'. assert (Z : (c' == 0)%Q).
    { apply (mult_small e); auto. eapply Qle_lt_trans; [exact B'|]. apply p2_lt. lia. }
    unfold c' in Z. lra.
  - destruct (IH HF' c' e ltac:(discriminate) M' O') as [I1 I2].
    { eapply Qle_trans; [exact B'|]. apply p2_le. lia. }
    split; [constructor; [apply (rnd_inF F r Hr)|exact I1]|].
    cbn [qsum fold_right]. fold (qsum (expand_cst exact_q rs c')). rewrite I2. unfold c'. ring.
Qed.

Theorem expand_cst_error : forall Fs rs, Forall2 nearest_in Fs rs -> Forall (fun F => 1 <= prec F /\ emin F = None) Fs ->
  forall c,
  Forall2 inF Fs (expand_cst exact_q rs c)
  /\ (Qabs (qsum (expand_cst exact_q rs c) - c) <= p2 (- total_prec Fs) * Qabs c)%Q.
Proof.
  induction 1 as [|F r Fs rs Hr Hrs IH]; intros HF c.
  - cbn [expand_cst qsum fold_right total_prec]. split; [constructor|]. change (- 0) with 0. setoid_replace (0 - c)%Q with (- c)%Q by ring. rewrite Qabs_opp. rewrite p2_0. lra.
  - inversion HF as [|? ? [Hp Hinf] HF']; subst. cbn [expand_cst exact_q exact_ops o_sub]. fold exact_q.
    set (c' := (c - r c)%Q). destruct (IH HF' c') as [I1 I2].
    split; [constructor; [apply (rnd_inF F r Hr)|exact I1]|].
    cbn [qsum fold_right]. fold (qsum (expand_cst exact_q rs c')).
    setoid_replace (r c + qsum (expand_cst exact_q rs c') - c)%Q with (qsum (expand_cst exact_q rs c') - c')%Q by (unfold c'; ring).
    eapply Qle_trans; [exact I2|].
    assert (R : (Qabs c' <= p2 (- prec F) * Qabs c)%Q) by (unfold c'; rewrite Qabs_Qminus; apply (rnd_rel F Hp r Hr); auto).
    cbn [total_prec fold_right]. fold (total_prec Fs).
    replace (- (prec F + total_prec Fs)) with (- total_prec Fs + - prec F) by lia. rewrite p2_plus.
    rewrite <- Qmult_assoc. apply mul_le_l; auto. apply Qlt_le_weak, p2_pos.
Qed.

(* whatever the exponent range: no choice of the last limb is closer *)
Theorem expand_cst_last_nearest : forall Fs rs F r, Forall2 nearest_in Fs rs -> nearest_in F r -> forall c,
  exists pre lst, expand_cst exact_q (rs ++ [r]) c = pre ++ [lst] /\ length pre = length Fs
  /\ forall f, inF F f -> (Qabs (qsum (pre ++ [lst]) - c) <= Qabs (qsum (pre ++ [f]) - c))%Q.
Proof.
  intros Fs rs F r Hrs Hr. induction Hrs as [|G g Gs gs Hg Hgs IH]; intros c.
  - exists [], (r c). split; [reflexivity|]. split; auto. intros f Hf. cbn [app qsum fold_right].
    setoid_replace (r c + 0 - c)%Q with (r c - c)%Q by ring. setoid_replace (f + 0 - c)%Q with (f - c)%Q by ring.
    apply (rnd_near F r Hr); auto.
  - destruct (IH (c - g c)%Q) as (pre & lst & E & L & N).
    exists (g c :: pre), lst. cbn [app expand_cst exact_q exact_ops o_sub]. fold exact_q. rewrite E.
    split; [reflexivity|]. split; [cbn; auto|]. intros f Hf. cbn [qsum fold_right app].
    fold (qsum (pre ++ [lst])) (qsum (pre ++ [f])).
    setoid_replace (g c + qsum (pre ++ [lst]) - c)%Q with (qsum (pre ++ [lst]) - (c - g c))%Q by ring.
    setoid_replace (g c + qsum (pre ++ [f]) - c)%Q with (qsum (pre ++ [f]) - (c - g c))%Q by ring. auto.
Qed.

Example cst_case :
  let F := mkF 24 None in
  (qsum (expand_cst exact_q [rne F; rne F] (inject_Z (2 ^ 40 + 1))) == inject_Z (2 ^ 40 + 1))%Q
  /\ Forall2 nearest_in [F; F] [rne F; rne F]
  /\ mult 0 (inject_Z (2 ^ 40 + 1)) /\ (Qabs (inject_Z (2 ^ 40 + 1)) <= p2 (total_prec [F; F] + 0))%Q
  /\ map Qred (expand_cst exact_q [rne F; rne F] (1 # 3)) = [11184811 # 33554432; (-11184811) # 1125899906842624]%Q
  /\ ~ (qsum (expand_cst exact_q [rne F; rne F] (1 # 3)) == 1 # 3)%Q.
Proof.
  cbn zeta. split; [vm_compute; reflexivity|]. split; [repeat constructor; apply (rne_nearest (mkF 24 None)); cbn; lia|].
  split; [exists (2 ^ 40 + 1); vm_compute; reflexivity|]. split; [vm_compute; discriminate|].
  split; [vm_compute; reflexivity|]. vm_compute. discriminate.
Qed.

(* ------------------------------------------------------------------ *)
(* C23, C24, C64: what does not hold                                    *)
(* ------------------------------------------------------------------ *)

(* FastTwoSum without its condition, in every format and for every rounding to
   nearest *)
Lemma rnd_mult4 : forall F rnd, 2 <= prec F -> nearest_in F rnd -> forall v f,
  inF F f -> mult 2 f -> (Qabs (f - v) < 2)%Q -> (p2 (prec F + 1) + 4 <= v)%Q -> (rnd v == f)%Q.
Proof.
  intros F rnd Hp Hr v f Hf Mf D L.
  pose proof (rnd_near F rnd Hr v f Hf) as N. pose proof (rnd_inF F rnd Hr v) as I.
  set (r := rnd v) in *. clearbody r.
  assert (Lr : (p2 (prec F + 1) < r)%Q) by (apply Qabs_Qlt_condition in D; assert (D' := Qle_lt_trans _ _ _ N (proj2 (Qabs_Qlt_condition _ _) D)); apply Qabs_Qlt_condition in D'; lra).
  assert (Mr : mult 2 r).
  { apply (inF_big F ltac:(lia)); auto. replace (prec F + 2 - 1) with (prec F + 1) by lia.
    pose proof (p2_pos (prec F + 1)). rewrite Qabs_pos by lra. auto. }
  assert (Z : (r - f == 0)%Q); [|lra].
  apply (mult_small 2); [apply mult_minus; auto|]. change (p2 2) with 4%Q.
  assert (D' := Qle_lt_trans _ _ _ N D). apply Qabs_Qlt_condition in D. apply Qabs_Qlt_condition in D'.
  apply Qabs_Qlt_condition. lra.
Qed.

Theorem fasttwosum_unordered_refuted : forall F rnd, 2 <= prec F -> exp_ok F 0 -> nearest_in F rnd ->
  exists x y, inF F x /\ inF F y
  /\ let '(s, e) := fasttwosum (rounded_ops rnd) x y in ~ (s + e == x + y)%Q.
Proof.
  intros F rnd Hp O Hr. set (P := p2 (prec F + 1)).
  assert (MP : mult 2 P) by (apply mult_p2; lia).
  assert (M4 : mult 2 4) by (exists 1; reflexivity).
  assert (P8 : (8 <= P)%Q) by (pose proof (p2_le 3 (prec F + 1) ltac:(lia)) as H; assert (E : (p2 3 == 8)%Q) by reflexivity; unfold P; lra).
  assert (O2 : exp_ok F 2) by (apply (exp_ok_le F 0); auto; lia).
  assert (PP : (2 * P == p2 (prec F + 2))%Q) by (unfold P; rewrite <- p2_succ; replace (prec F + 1 + 1) with (prec F + 2) by lia; reflexivity).
  assert (I4 : inF F (P + 4)) by (apply (inF_intro F ltac:(lia) 2); auto; [apply mult_plus; auto|rewrite Qabs_pos by lra; lra]).
  assert (I8 : inF F (P + 8)) by (apply (inF_intro F ltac:(lia) 2); auto;
    [apply mult_plus; auto; exists 2; reflexivity|rewrite Qabs_pos by lra; lra]).
  exists 3%Q, (P + 4)%Q.
  split. { apply (inF_intro F ltac:(lia) 0); auto; [exists 3; reflexivity|]. change (Qabs 3) with 3%Q.
    pose proof (p2_le 2 (prec F + 0) ltac:(lia)) as H. assert (E : (p2 2 == 4)%Q) by reflexivity. lra. }
  split; auto.
  cbn [fasttwosum rounded_ops o_add o_sub].
  assert (S1 : (rnd (3 + (P + 4)) == P + 8)%Q).
  { apply (rnd_mult4 F rnd Hp Hr); auto; [apply mult_plus; auto; exists 2; reflexivity| |fold P; lra].
    setoid_replace (P + 8 - (3 + (P + 4)))%Q with 1%Q by ring. reflexivity. }
  set (s := rnd (3 + (P + 4))%Q) in *.
  assert (S2 : (rnd (s - 3) == P + 4)%Q).
  { apply (rnd_mult4 F rnd Hp Hr); auto; [apply mult_plus; auto| |fold P; lra].
    setoid_replace (P + 4 - (s - 3))%Q with (- (1))%Q by lra. reflexivity. }
  assert (S3 : (rnd (P + 4 - rnd (s - 3)) == 0)%Q).
  { rewrite (rnd_comp F rnd Hr _ 0) by lra. apply (rnd_id F rnd Hr). apply (inF_intro F ltac:(lia) 0); auto; [apply mult_0|].
    apply Qlt_le_weak, p2_pos. }
  intros E. lra.
Qed.

(* The 2 <- 2 + 2 addition declares a relative error of 2^-(2p-6) for all
   double-word operands with |lo| <= 2^-p |hi| (MB_Add222, its
   check_input_descriptors).  When the high limbs cancel the result can be 0
   although the sum is not: no relative bound below 1 holds. *)
Theorem add222_relative_error_refuted : forall F rnd, 3 <= prec F -> exp_ok F (- prec F - 2) -> nearest_in F rnd ->
  exists xh xl yh yl, inF F xh /\ inF F xl /\ inF F yh /\ inF F yl
  /\ (Qabs xl <= p2 (- prec F) * Qabs xh)%Q /\ (Qabs yl <= p2 (- prec F) * Qabs yh)%Q
  /\ ~ (xh + xl + (yh + yl) == 0)%Q
  /\ let '(zh, zl) := add222 (rounded_ops rnd) xh xl yh yl in (zh + zl == 0)%Q.
Proof.
  intros F rnd Hp O Hr. set (p := prec F) in *. set (P := p2 p). set (d := p2 (- p - 2)).
  assert (Hp1 : 1 <= prec F) by (fold p; lia). assert (Hp2 : 2 <= prec F) by (fold p; lia).
  assert (OK : forall e, - p - 2 <= e -> exp_ok F e) by (intros e He; apply (exp_ok_le F (- p - 2)); auto).
  assert (Dp : (0 < d)%Q) by apply p2_pos.
  assert (P8 : (8 <= P)%Q) by (pose proof (p2_le 3 p ltac:(lia)) as H; assert (E : (p2 3 == 8)%Q) by reflexivity; unfold P; lra).
  assert (D32 : (32 * d <= 1)%Q).
  { pose proof (p2_le (- p - 2) (-5) ltac:(lia)) as H. assert (E : (p2 (-5) == 1 # 32)%Q) by reflexivity. fold d in H. lra. }
  assert (PU : (p2 (- p) * P == 1)%Q) by (unfold P; rewrite <- p2_plus; replace (- p + p) with 0 by lia; reflexivity).
  assert (U4 : (p2 (- p) == 4 * d)%Q).
  { unfold d. replace (- p) with (- p - 2 + 1 + 1) by lia. rewrite !p2_succ. replace (- p - 2 + 1 + 1 - 2) with (- p - 2) by lia. ring. }
  assert (MP : mult 0 P) by (apply mult_p2; lia).
  assert (M1 : mult 0 1) by (exists 1; reflexivity).
  assert (Md : mult (- p - 2) d) by (apply mult_p2; lia).
  assert (Mq : forall k, mult (- p - 2) (inject_Z k * (1 # 4))%Q).
  { intros k. apply (mult_le (-2)); [lia|]. exists k. reflexivity. }
  assert (Ixh : inF F P).
  { apply (inF_intro F Hp1 0); auto; [apply OK; lia|]. rewrite Qabs_pos by lra. fold p. rewrite Z.add_0_r. unfold P. lra. }
  assert (Iyh : inF F (- (P - 1))).
  { apply (inF_intro F Hp1 0); auto; [apply mult_opp, mult_minus; auto|apply OK; lia|]. rewrite Qabs_opp, Qabs_pos by lra. fold p. rewrite Z.add_0_r. fold P. lra. }
  assert (Ixl : inF F (- (3 # 4))).
  { apply (inF_intro F Hp1 (-2)); [exists (-3); reflexivity|apply OK; lia|]. change (Qabs (- (3 # 4))) with (3 # 4)%Q.
    apply Qle_trans with (p2 0); [vm_compute; discriminate|]. apply p2_le. fold p. lia. }
  assert (B14 : (1 # 4 == p2 (p + (- p - 2)))%Q) by (replace (p + (- p - 2)) with (-2) by lia; reflexivity).
  assert (Iyl : inF F (- (1 # 4) + d)).
  { apply (inF_intro F Hp1 (- p - 2)); [apply mult_plus; auto|apply OK; lia|].
    - apply (mult_comp _ (inject_Z (-1) * (1 # 4))); auto. reflexivity.
    - fold p. rewrite <- B14. apply Qabs_le_iff. split; lra. }
  assert (I1 : inF F 1).
  { apply (inF_intro F Hp1 0); auto; [apply OK; lia|]. change (Qabs 1) with (p2 0). apply p2_le. fold p. lia. }
  exists P, (- (3 # 4))%Q, (- (P - 1))%Q, (- (1 # 4) + d)%Q.
  split; auto. split; auto. split; auto. split; auto.
  split. { change (Qabs (- (3 # 4))) with (3 # 4)%Q. rewrite (Qabs_pos P) by lra. rewrite PU. lra. }
  split. { rewrite Qabs_opp, (Qabs_pos (P - 1)) by lra. rewrite Qabs_neg by lra.
    setoid_replace (p2 (- p) * (P - 1))%Q with (p2 (- p) * P - p2 (- p))%Q by ring. rewrite PU, U4. lra. }
  split. { lra. }
  unfold add222. pose proof (twosum_F F ltac:(fold p; lia) rnd Hr P (- (P - 1)) Ixh Iyh) as T.
  destruct (twosum _ P _) as [v1 v2]. destruct T as (T1 & T2 & _). cbn [rounded_ops o_add].
  assert (V1 : (v1 == 1)%Q).
  { rewrite T1. rewrite (rnd_comp F rnd Hr _ 1) by ring. apply (rnd_id F rnd Hr); auto. }
  assert (V3 : (rnd (- (3 # 4) + (- (1 # 4) + d)) == - (1))%Q).
  { (* the candidates near -1 + d are -1 and -1 + 4 d *)
    set (v := (- (3 # 4) + (- (1 # 4) + d))%Q). assert (Ev : (v == - (1) + d)%Q) by (unfold v; ring).
    pose proof (rnd_near F rnd Hr v (- (1)) ltac:(apply (inF_opp F Hp1); auto)) as N.
    pose proof (rnd_inF F rnd Hr v) as I. set (r := rnd v) in *. clearbody r.
    assert (N' : (Qabs (r - v) <= d)%Q) by (setoid_replace (- (1) - v)%Q with (- d)%Q in N by lra; rewrite Qabs_opp, (Qabs_pos d) in N by lra; exact N).
    apply Qabs_le_iff in N'.
    assert (Mr : mult (- p) r).
    { apply (inF_big F Hp1); auto. fold p. replace (p + - p - 1) with (-1) by lia. change (p2 (-1)) with (1 # 2)%Q.
      rewrite Qabs_neg by lra. lra. }
    assert (Z : (r - - (1) == 0)%Q); [|lra].
    apply (mult_small (- p)); [apply mult_minus; auto; apply mult_opp; apply (mult_p2 (- p) 0); lia|].
    rewrite U4. apply Qabs_Qlt_condition. lra. }
  set (v3 := rnd (- (3 # 4) + (- (1 # 4) + d))%Q) in *.
  assert (V2 : (v2 == 0)%Q) by lra.
  assert (V4 : (rnd (v2 + v3) == - (1))%Q).
  { rewrite (rnd_comp F rnd Hr _ (- (1))) by lra. apply (rnd_id F rnd Hr). apply (inF_opp F Hp1); auto. }
  set (v4 := rnd (v2 + v3)%Q) in *.
  pose proof (fts F ltac:(fold p; lia) rnd Hr v1 v4 ltac:(apply (inF_comp F 1); auto; symmetry; auto) ltac:(apply (rnd_inF F rnd Hr))) as Z.
  destruct (fasttwosum _ v1 v4) as [zh zl]. destruct Z as [_ Z]; [right; rewrite V4, V1; discriminate|]. lra.
Qed.

(* the same on properly normalized operands, binary32 and binary64 precision,
   round to nearest even *)
Theorem add222_normalized_refuted : forall F, F = mkF 24 None \/ F = mkF 53 None ->
  exists xh xl yh yl, normalized (rne F) [xh; xl] /\ normalized (rne F) [yh; yl]
  /\ ~ (xh + xl + (yh + yl) == 0)%Q
  /\ let '(zh, zl) := add222 (rounded_ops (rne F)) xh xl yh yl in (zh + zl == 0)%Q.
Proof.
  intros F [-> | ->].
  - exists (p2 24), (- (1 # 2))%Q, (- (p2 24 - 1))%Q, (- ((1 # 2) - p2 (-25)))%Q.
    cbn [normalized qsum fold_right]. repeat split; try (vm_compute; reflexivity). vm_compute. discriminate.
  - exists (p2 53), (- (1 # 2))%Q, (- (p2 53 - 1))%Q, (- ((1 # 2) - p2 (-54)))%Q.
    cbn [normalized qsum fold_right]. repeat split; try (vm_compute; reflexivity). vm_compute. discriminate.
Qed.

Definition zops : ops Z := exact_ops Z Z.add Z.mul Z.sub Z.opp.
Definition zvalue : list Z -> Z := value Z 0 Z.add.
Lemma Zring : ring_theory 0 1 Z.add Z.mul Z.sub Z.opp (@eq Z).
Proof. constructor; intros; ring. Qed.

(* the (2, 1, 2) fused multiply-add computes xh * (xl + y) + z: wrong for all
   operands where xh * xl differs from xl * y *)
Theorem expand_fma_212_refuted : forall xh xl y zh zl, xh * xl <> xl * y ->
  exists res, expand_fma zops FStandard 2 [xh; xl] [y] [zh; zl] = Some res
  /\ zvalue res <> (xh + xl) * y + (zh + zl).
Proof.
  intros xh xl y zh zl N. destruct (expand_fma_212_value Z 0 1 Z.add Z.mul Z.sub Z.opp Zring FStandard xh xl y zh zl) as (res & E & V).
  exists res. split; [exact E|]. intros C. apply N. change (zvalue res) with (value Z 0 Z.add res) in C. rewrite V in C. lia.
Qed.

(* the specifier of the node is ignored: x * y - z is expanded as x * y + z *)
Theorem expand_fma_specifier_refuted : forall sp x y z, sp <> FStandard -> x * y <> 0 -> z <> 0 ->
  x * y <> z -> x * y <> - z ->
  exists res, expand_fma zops sp 2 [x] [y] [z] = Some res
  /\ zvalue res <> fma_value Z Z.add Z.mul Z.sub Z.opp sp x y z.
Proof.
  intros sp x y z S N1 N2 N3 N4.
  assert (E : expand_fma zops sp 2 [x] [y] [z] = expand_fma zops FStandard 2 [x] [y] [z]) by (destruct sp; reflexivity).
  destruct (expand_fma zops FStandard 2 [x] [y] [z]) as [res|] eqn:R; [|discriminate R].
  exists res. split; auto.
  pose proof (expand_fma_exact_partial Z 0 1 Z.add Z.mul Z.sub Z.opp Zring 2%nat [x] [y] [z] res R) as X.
  destruct X as [_ X]; [cbn; lia|]. change (zvalue res) with (value Z 0 Z.add res). rewrite X.
  cbn [value fold_right low_product fma_value]. destruct sp; cbn [fma_value]; [congruence| | |]; rewrite !Z.add_0_r; lia.
Qed.

Theorem add321_v2_refuted : forall xh xl y, xl <> 0 ->
  zvalue (l3 (add321_v2 zops xh xl y)) <> xh + xl + y.
Proof.
  intros xh xl y N. change (zvalue) with (value Z 0 Z.add). unfold zops.
  rewrite (add321_v2_value Z 0 1 Z.add Z.mul Z.sub Z.opp Zring). lia.
Qed.

(* ------------------------------------------------------------------ *)
(* examples                                                             *)
(* ------------------------------------------------------------------ *)
(* exact limb operations: a wrong wiring would show on these operands *)
Example exact_case :
  (exists r, expand_mul zops true 3 [1000; 7] [2000; -3; 11] = Some r /\ zvalue r = 1007 * 2008)
  /\ (exists r, expand_add zops true 3 [1000; 7; 2] [2000; -3] = Some r /\ zvalue r = 1009 + 1997)
  /\ (exists r, expand_sub zops true 2 [1000; 7] [2000; -3] = Some r /\ zvalue r = 1007 - 1997)
  /\ (exists r, expand_fma zops FStandard 2 [5] [1000; 7] [2000; -3] = Some r /\ zvalue r = 5 * 1007 + 1997)
  /\ (exists r, expand_fma zops FStandard 2 [1000; 7] [5] [2000; -3] = Some r /\ zvalue r = 1000 * 12 + 1997)
  /\ (exists r, expand_fma zops FSubtract 2 [3] [5] [4] = Some r /\ zvalue r = 19)
  /\ zvalue (l3 (add321_v2 zops 100 10 1)) = 121.
Proof. repeat split; try (eexists; split; [reflexivity|reflexivity]); reflexivity. Qed.

(* rounded operations at precision 24: operands whose sum and product do not
   fit; the hypotheses of the error theorems hold *)
Definition red2 (ab : Q * Q) : Q * Q := (Qred (fst ab), Qred (snd ab)).
Definition red3 (abc : Q * Q * Q) : Q * Q * Q := (Qred (fst (fst abc)), Qred (snd (fst abc)), Qred (snd abc)).
Example rounded_case :
  let F := mkF 24 None in let O := rounded_ops (rne F) in
  nearest_in F (rne F)
  /\ inF F 3 /\ inF F 16777216
  /\ red2 (twosum O 3%Q 16777216%Q) = (16777220, -1)%Q
  /\ red2 (fasttwosum O 16777216%Q 3%Q) = (16777220, -1)%Q
  /\ red2 (fasttwosum O 3%Q 33554436%Q) = (33554440, 0)%Q
  /\ red2 (mul211 O 16777215%Q 16777213%Q) = (281474909601792, 3)%Q
  /\ red2 (add212 O 3%Q 16777216%Q (1 # 4)%Q) = (16777220, -3 # 4)%Q
  /\ (Qabs (1 # 4) <= p2 (- 24) * Qabs 16777216)%Q
  /\ red2 (add221_fast O 16777216%Q (1 # 4)%Q 3%Q) = (16777220, -3 # 4)%Q
  /\ red2 (add222 O 16777216%Q (1 # 4)%Q 3%Q (1 # 1073741824)%Q) = (16777220, -3 # 4)%Q
  /\ red2 (mul212 O 3%Q 16777215%Q (1 # 4)%Q) = (50331644, 7 # 4)%Q
  /\ red2 (mul222 O 16777216%Q (1 # 4)%Q 3%Q (1 # 16777216)%Q) = (50331648, 7 # 4)%Q
  /\ red3 (normalize_33 O 1%Q 16777216%Q (1 # 4)%Q) = (16777216, 5 # 4, 0)%Q
  /\ red3 (add321 O 16777216%Q (1 # 4)%Q 3%Q) = (16777220, -3 # 4, 0)%Q.
Proof.
  cbn zeta. split; [apply (rne_nearest (mkF 24 None)); cbn; lia|].
  split; [exists 3, 0; split; [reflexivity|split; [cbn; lia|exact I]]|].
  split; [exists 16777216, 0; split; [reflexivity|split; [cbn; lia|exact I]]|].
  repeat (split; [vm_compute; first [reflexivity|discriminate]|]). vm_compute. reflexivity.
Qed.

Print Assumptions twosum_exact.
Print Assumptions fasttwosum_exact.
Print Assumptions fasttwosum_unordered_refuted.
Print Assumptions rne_nearest.
Print Assumptions sollya_round_rne.
Print Assumptions expand_add_exact.
Print Assumptions expand_sub_exact.
Print Assumptions expand_mul_exact.
Print Assumptions expand_fma_exact_partial.
Print Assumptions expand_fma_212_refuted.
Print Assumptions expand_fma_specifier_refuted.
Print Assumptions meta_blocks_exact.
Print Assumptions mul211_nofma_exact.
Print Assumptions add321_v2_refuted.
Print Assumptions pred_gt_correct.
Print Assumptions expand_max_correct.
Print Assumptions expand_min_correct.
Print Assumptions expand_abs_correct.
Print Assumptions expand_max_unnormalized_refuted.
Print Assumptions expand_max_mixed_lengths_refuted.
Print Assumptions expand_cst_fits.
Print Assumptions expand_cst_error.
Print Assumptions expand_cst_last_nearest.
Print Assumptions mul211_exact.
Print Assumptions normalize_33_exact.
Print Assumptions add321_exact.
Print Assumptions add212_error.
Print Assumptions add221_fast_error.
Print Assumptions add222_error.
Print Assumptions add222_relative_error_refuted.
Print Assumptions add222_normalized_refuted.
Print Assumptions mul212_error.
Print Assumptions mul222_error.
