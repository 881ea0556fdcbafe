(* Lemmas for the LLVM properties: rounding is odd. *)
From Coq Require Import ZArith QArith Qabs Qround Bool List String Lia Lqa Qfield.
From Verif Require Import QUtil FpFormatModel PowModel ExpModel ExpRecon Exp2Model CbrtModel LlvmModel LlvmSpec.
Import ListNotations.
Open Scope list_scope.
Open Scope Z_scope.

Lemma floor_unique : forall q z, (inject_Z z <= q)%Q -> (q < inject_Z (z + 1))%Q -> Qfloor q = z.
Proof.
  intros q z A B. pose proof (Qfloor_le q) as C. pose proof (Qlt_floor q) as D.
  assert ((inject_Z z < inject_Z (Qfloor q + 1))%Q) by lra.
  assert ((inject_Z (Qfloor q) < inject_Z (z + 1))%Q) by lra.
  rewrite <- Zlt_Qlt in *. lia.
Qed.
Lemma qrne_opp : forall q, qrne (- q) = - qrne q.
Proof.
  intros q. unfold qrne. set (f := Qfloor q).
  pose proof (Qfloor_le q) as A. pose proof (Qlt_floor q) as B. fold f in A, B.
  rewrite inject_Z_plus in B. change (inject_Z 1) with 1%Q in B.
  destruct (Qeq_dec q (inject_Z f)) as [E|E].
  - assert (F : Qfloor (- q) = - f).
    { apply floor_unique; rewrite ?inject_Z_plus, inject_Z_opp; change (inject_Z 1) with 1%Q; lra. }
    rewrite F. rewrite (proj1 (Qlt_alt (- q - inject_Z (- f)) (1 # 2))) by (rewrite inject_Z_opp; lra).
    rewrite (proj1 (Qlt_alt (q - inject_Z f) (1 # 2))) by lra. reflexivity.
  - assert (A' : (inject_Z f < q)%Q) by (apply Qle_lteq in A; destruct A as [A|A]; auto; exfalso; apply E; rewrite A; reflexivity).
    assert (F : Qfloor (- q) = - f - 1).
    { apply floor_unique; unfold Z.sub; rewrite ?inject_Z_plus, !inject_Z_opp; change (inject_Z 1) with 1%Q; lra. }
    rewrite F.
    assert (V : (- q - inject_Z (- f - 1) == 1 - (q - inject_Z f))%Q)
      by (unfold Z.sub; rewrite inject_Z_plus, !inject_Z_opp; change (inject_Z 1) with 1%Q; ring).
    destruct (q - inject_Z f ?= 1 # 2)%Q eqn:C.
    + apply Qeq_alt in C. rewrite (proj1 (Qeq_alt (- q - inject_Z (- f - 1)) (1 # 2))) by (rewrite V, C; reflexivity).
      replace (- f - 1) with (- (f + 1)) by lia. rewrite Z.even_opp, Z.add_1_r, Z.even_succ, <- Z.negb_even.
      destruct (Z.even f); cbn [negb]; lia.
    + apply Qlt_alt in C. rewrite (proj1 (Qgt_alt (- q - inject_Z (- f - 1)) (1 # 2))) by (rewrite V; lra). lia.
    + apply Qgt_alt in C. rewrite (proj1 (Qlt_alt (- q - inject_Z (- f - 1)) (1 # 2))) by (rewrite V; lra). lia.
Qed.
Lemma qabs_opp : forall v, Qabs (- v) = Qabs v.
Proof. intros [n d]. unfold Qabs, Qopp; cbn [Qnum Qden]. rewrite Z.abs_opp. reflexivity. Qed.
Lemma qeqb_opp : forall v, Qeq_bool (- v) 0 = Qeq_bool v 0.
Proof.
  intros v. destruct (Qeq_bool v 0) eqn:E.
  - apply Qeq_bool_iff in E. apply Qeq_bool_iff. lra.
  - apply Qeq_bool_neq in E. destruct (Qeq_bool (- v) 0) eqn:F; auto. apply Qeq_bool_iff in F. exfalso. apply E. lra.
Qed.
Lemma qleb_opp : forall v, Qeq_bool v 0 = false -> Qle_bool 0 (- v) = negb (Qle_bool 0 v).
Proof.
  intros v E. apply Qeq_bool_neq in E. destruct (Qle_bool 0 v) eqn:A; cbn [negb].
  - apply Qle_bool_iff in A. destruct (Qle_bool 0 (- v)) eqn:B; auto. apply Qle_bool_iff in B. exfalso. apply E. lra.
  - apply Qle_bool_iff. destruct (Qlt_le_dec v 0) as [L|L]; [lra|]. apply Qle_bool_iff in L. congruence.
Qed.
Lemma sollya_round_opp : forall G v, sollya_round G (- v) = option_map Qopp (sollya_round G v).
Proof.
  intros G v. unfold sollya_round. rewrite qeqb_opp. destruct (Qeq_bool v 0); [reflexivity|].
  cbv zeta. rewrite qabs_opp. set (e := Z.max (qlog2 (Qabs v)) (emin_normal G) - (sprec G - 1)).
  assert (R : (inject_Z (qrne (- v / p2 e)) * p2 e)%Q = (- (inject_Z (qrne (v / p2 e)) * p2 e))%Q).
  { rewrite (qrne_comp (- v / p2 e) (- (v / p2 e))) by (unfold Qdiv; ring). rewrite qrne_opp.
    destruct (p2 e) as [n d]. unfold Qopp, Qmult, inject_Z. cbn [Qnum Qden]. rewrite Z.mul_opp_l. reflexivity. }
  rewrite R, qabs_opp. destruct (Qle_bool (p2 (emax G + 1)) (Qabs (inject_Z (qrne (v / p2 e)) * p2 e))); reflexivity.
Qed.
Lemma datum_opp : forall r n, f_opp (datum r n) = datum (option_map Qopp r) (negb n).
Proof.
  intros [q|] n; cbn [option_map datum]; [|destruct n; reflexivity]. rewrite qeqb_opp.
  destruct (Qeq_bool q 0), n; reflexivity.
Qed.

(* a number denoted by Num is not null *)
Definition proper (v : fpv) : Prop := match v with Num q => ~ (q == 0)%Q | _ => True end.
Lemma f_neg_opp : forall v, proper v -> t_nan v = false -> f_neg (f_opp v) = negb (f_neg v).
Proof.
  intros [q| | | | | |] P N; try discriminate; try reflexivity. cbn [f_opp f_neg]. f_equal. apply qleb_opp.
  destruct (Qeq_bool q 0) eqn:E; auto. apply Qeq_bool_iff in E. contradiction.
Qed.
Lemma f_q_opp : forall v, (f_q (f_opp v) == - f_q v)%Q.
Proof. intros [q| | | | | |]; cbn [f_opp f_q]; reflexivity. Qed.
Lemma t_opp : forall v, t_nan (f_opp v) = t_nan v /\ t_inf (f_opp v) = t_inf v /\ t_zero (f_opp v) = t_zero v.
Proof. intros [q| | | | | |]; auto. Qed.

(* the opposite of a fused operation, when its exact result is not null *)
Lemma fma_opp : forall G a b c, proper a -> proper c ->
  ~ ((t_inf a || t_inf b || t_inf c) = false /\ (f_q a * f_q b + f_q c == 0)%Q) ->
  f_opp (f_fma G a b c) = f_fma G (f_opp a) b (f_opp c).
Proof.
  intros G a b c Pa Pc NE. destruct (t_opp a) as [Na [Ia Za]]. destruct (t_opp c) as [Nc [Ic Zc]].
  unfold f_fma at 2. rewrite Na, Nc, Ia, Ic, Za, Zc. unfold f_fma in *. cbv zeta in *.
  destruct (t_nan a) eqn:TA; [reflexivity|]. destruct (t_nan b) eqn:TB; [reflexivity|].
  destruct (t_nan c) eqn:TC; [reflexivity|]. cbn [orb] in *.
  rewrite (f_neg_opp a Pa TA), (f_neg_opp c Pc TC). rewrite <- negb_xorb_l.
  destruct (t_inf a && t_zero b || t_zero a && t_inf b); [reflexivity|].
  destruct (t_inf a || t_inf b) eqn:I.
  - rewrite <- negb_xorb_l, <- negb_xorb_r, negb_involutive.
    destruct (t_inf c && xorb (xorb (f_neg a) (f_neg b)) (f_neg c)); [reflexivity|].
    destruct (xorb (f_neg a) (f_neg b)); reflexivity.
  - destruct (t_inf c) eqn:IC; [reflexivity|]. cbn [orb] in NE.
    assert (S : (f_q (f_opp a) * f_q b + f_q (f_opp c) == - (f_q a * f_q b + f_q c))%Q) by (rewrite !f_q_opp; ring).
    assert (E : Qeq_bool (f_q a * f_q b + f_q c) 0 = false).
    { destruct (Qeq_bool (f_q a * f_q b + f_q c) 0) eqn:E; auto. apply Qeq_bool_iff in E. exfalso. apply NE. auto. }
    rewrite E. rewrite (Qeqb_comp _ _ S 0%Q 0%Q (Qeq_refl 0%Q)), qeqb_opp, E.
    rewrite (sollya_round_comp G _ _ S), sollya_round_opp, datum_opp. f_equal. f_equal.
    rewrite (Qleb_comp 0%Q 0%Q (Qeq_refl 0%Q) _ _ S). symmetry. apply qleb_opp. auto.
Qed.
