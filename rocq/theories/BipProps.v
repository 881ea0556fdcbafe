(* Bipartite approximation: indices, error of the tables and of the result, what is wrong. *)
From Coq Require Import ZArith QArith Qabs Qround List Bool Znumtheory Zpow_facts Lia Lqa.
From Verif Require Import QUtil FpFormatModel FixedModel FixedSpec FixedProps RtlFixedModel BipModel.
Import ListNotations.
Open Scope Z_scope.

Definition sizes_ok (b : bip) : Prop := 1 <= balpha b /\ 1 <= bbeta b /\ 1 <= bgamma b.
Definition width (b : bip) : Z := balpha b + bbeta b + bgamma b.

(* ---- 1. the indices of the tables ---- *)
Lemma pow_add : forall a c, 0 <= a -> 0 <= c -> 2 ^ (a + c) = 2 ^ a * 2 ^ c.
Proof. intros. apply Z.pow_add_r; lia. Qed.
Lemma pow_ge1 : forall a, 0 <= a -> 1 <= 2 ^ a.
Proof. intros. pose proof (Z.pow_pos_nonneg 2 a). lia. Qed.
Theorem bip_indices : forall b n, sizes_ok b -> 0 <= n < 2 ^ width b ->
  let v := mkbv (width b) n in
  tiv_index b v = mkbv (balpha b + bbeta b) (n / 2 ^ bgamma b) /\
  to_index b v = mkbv (balpha b + bgamma b) (n / 2 ^ (bbeta b + bgamma b) * 2 ^ bgamma b + n mod 2 ^ bgamma b) /\
  0 <= n / 2 ^ bgamma b < 2 ^ (balpha b + bbeta b) /\
  0 <= n / 2 ^ (bbeta b + bgamma b) < 2 ^ balpha b /\
  0 <= bval (to_index b v) < 2 ^ (balpha b + bgamma b).
Proof.
  intros b n (Ha & Hb & Hg) Hn v. unfold width in *.
  set (al := balpha b) in *. set (be := bbeta b) in *. set (ga := bgamma b) in *.
  assert (0 <= n / 2 ^ (be + ga) < 2 ^ al) as H1.
  { split; [apply Z.div_pos; [lia|apply Z.pow_pos_nonneg; lia]|]. apply Z.div_lt_upper_bound; [apply Z.pow_pos_nonneg; lia|].
    rewrite <- Z.pow_add_r by lia. replace (be + ga + al) with (al + be + ga) by lia. lia. }
  assert (0 <= n / 2 ^ ga < 2 ^ (al + be)) as H2.
  { split; [apply Z.div_pos; [lia|apply Z.pow_pos_nonneg; lia]|]. apply Z.div_lt_upper_bound; [apply Z.pow_pos_nonneg; lia|].
    rewrite <- Z.pow_add_r by lia. replace (ga + (al + be)) with (al + be + ga) by lia. lia. }
  assert (0 <= n mod 2 ^ ga < 2 ^ ga) as H3 by (apply Z.mod_pos_bound; apply Z.pow_pos_nonneg; lia).
  assert (n / 2 ^ (be + ga) = (n / 2 ^ ga) / 2 ^ be) as H4.
  { rewrite Z.div_div by (try apply Z.pow_nonzero; try apply Z.pow_pos_nonneg; lia). rewrite <- Z.pow_add_r by lia. f_equal. f_equal. lia. }
  assert (alpha_index b v = mkbv al (n / 2 ^ (be + ga))) as EA.
  { unfold alpha_index, slice, from_msb. fold al be ga. cbn [bval v].
    replace (al + be + ga - 1 - 0 - (al + be + ga - 1 - (al - 1)) + 1) with al by lia.
    replace (al + be + ga - 1 - (al - 1)) with (be + ga) by lia. rewrite Z.shiftr_div_pow2 by lia. rewrite (Z.mod_small _ _ H1). reflexivity. }
  assert (beta_index b v = mkbv be ((n / 2 ^ ga) mod 2 ^ be)) as EB.
  { unfold beta_index, slice, from_msb. fold al be ga. cbn [bval v].
    replace (al + be + ga - 1 - al - ga + 1) with be by lia. rewrite Z.shiftr_div_pow2 by lia. reflexivity. }
  assert (gamma_index b v = mkbv ga (n mod 2 ^ ga)) as EG.
  { unfold gamma_index, slice. fold al be ga. cbn [bval v]. replace (ga - 1 - 0 + 1) with ga by lia. reflexivity. }
  unfold tiv_index, to_index. rewrite EA, EB, EG. unfold concat_bv. cbn [bw bval].
  split; [|split; [reflexivity|split; [exact H2|split; [exact H1|]]]].
  - f_equal. rewrite H4. pose proof (Z.div_mod (n / 2 ^ ga) (2 ^ be)). assert (2 ^ be <> 0) by (apply Z.pow_nonzero; lia). lia.
  - rewrite (Z.pow_add_r 2 al ga) by lia. nia.
Qed.
Example bip_indices_ex : tiv_index default_bip (mkbv 16 0xabcd) = mkbv 11 (0xabcd / 32) /\ to_index default_bip (mkbv 16 0xabcd) = mkbv 11 (42 * 32 + 13).
Proof. split; reflexivity. Qed.

(* the reduced argument: the input is found in the tables exactly when the shift loses
   nothing *)
Lemma reduced_value : forall b x L, sizes_ok b -> 0 <= br b -> 0 <= frsz (bprec b) ->
  (blo b * p2 (frsz (bprec b)) == inject_Z L)%Q -> 0 <= x - L < 2 ^ (br b + frsz (bprec b)) ->
  let P := frsz (bprec b) in let s := (x - L) / 2 ^ br b in
  reduced b x = mkbv (width b) (if P <=? width b then s * 2 ^ (width b - P) else s / 2 ^ (P - width b)) /\
  0 <= bval (reduced b x) < 2 ^ width b.
Proof.
  intros b x L (Ha & Hb & Hg) Hr HP HL Hx P s. unfold reduced. fold P in HL, Hx, HP |- *.
  fold (width b). rewrite (Qfloor_int _ L HL). rewrite Z.shiftr_div_pow2 by lia. fold s.
  assert (0 <= s < 2 ^ P) as Hs.
  { unfold s. split; [apply Z.div_pos; [lia|apply Z.pow_pos_nonneg; lia]|].
    apply Z.div_lt_upper_bound; [apply Z.pow_pos_nonneg; lia|]. rewrite <- Z.pow_add_r by lia. lia. }
  assert (0 <= width b) by (unfold width; lia).
  destruct (Z.leb_spec P (width b)) as [H1|H1].
  - rewrite Z.shiftl_mul_pow2 by lia. assert (0 <= s * 2 ^ (width b - P) < 2 ^ width b) as B.
    { pose proof (pow_ge1 (width b - P)). replace (2 ^ width b) with (2 ^ P * 2 ^ (width b - P)) by (rewrite <- Z.pow_add_r by lia; f_equal; lia). nia. }
    rewrite (Z.mod_small _ _ B). cbn [bval]. auto.
  - rewrite Z.shiftr_div_pow2 by lia. assert (0 <= s / 2 ^ (P - width b) < 2 ^ width b) as B.
    { split; [apply Z.div_pos; [lia|apply Z.pow_pos_nonneg; lia]|]. apply Z.div_lt_upper_bound; [apply Z.pow_pos_nonneg; lia|].
      rewrite <- Z.pow_add_r by lia. replace (P - width b + width b) with P by lia. lia. }
    rewrite (Z.mod_small _ _ B). cbn [bval]. auto.
Qed.
Theorem bip_argument : forall b x L, sizes_ok b -> 0 <= br b -> 0 <= frsz (bprec b) <= width b ->
  (blo b * p2 (frsz (bprec b)) == inject_Z L)%Q -> 0 <= x - L < 2 ^ (br b + frsz (bprec b)) ->
  ((table_x b (bval (reduced b x)) == inject_Z x * p2 (- frsz (bprec b)))%Q <-> (2 ^ br b | x - L)).
Proof.
  intros b x L Hs Hr HP HL Hx.
  destruct (reduced_value b x L Hs Hr (proj1 HP) HL Hx) as [E B]. rewrite E in *. cbn [bval] in *.
  set (P := frsz (bprec b)) in *. rewrite (proj2 (Z.leb_le P (width b))) in * by lia.
  unfold table_x. fold (width b).
  assert (p2 (br b) * inject_Z ((x - L) / 2 ^ br b * 2 ^ (width b - P)) / p2 (width b)
     == inject_Z ((x - L) / 2 ^ br b * 2 ^ br b) * p2 (- P))%Q as E1.
  { rewrite !inject_Z_mult. rewrite <- (p2_Z (width b - P)), <- (p2_Z (br b)) by lia.
    assert (p2 (width b - P) == p2 (width b) * p2 (- P))%Q as E2 by (rewrite <- p2_plus; reflexivity).
    rewrite E2. pose proof (p2_nz (width b)). field. auto. }
  assert (blo b == inject_Z L * p2 (- P))%Q as E0.
  { pose proof (p2_opp P). rewrite <- HL. rewrite <- Qmult_assoc. rewrite (Qmult_comm (p2 P)). rewrite H. ring. }
  rewrite E1, E0.
  assert (forall y, (inject_Z L * p2 (- P) + inject_Z y * p2 (- P) == inject_Z x * p2 (- P))%Q <-> L + y = x) as IFF.
  { intro y. pose proof (p2_pos (- P)) as Hp. split.
    - intro H. assert (inject_Z (L + y) == inject_Z x)%Q as H' by (rewrite inject_Z_plus; nra).
      unfold Qeq in H'. cbn [Qnum Qden inject_Z] in H'. lia.
    - intros <-. rewrite inject_Z_plus. ring. }
  rewrite IFF. split.
  - intro H. exists ((x - L) / 2 ^ br b). lia.
  - intros [k Hk]. rewrite Hk. rewrite Z.div_mul by (apply Z.pow_nonzero; lia). lia.
Qed.
Example bip_argument_ex : (table_x default_bip (bval (reduced default_bip 40000)) == 40000 # 32768)%Q.
Proof. vm_compute. reflexivity. Qed.
(* with an interval wider than 1, neighbouring inputs are confused whatever the tables *)
Theorem bip_wide_interval_refuted : forall b x L, sizes_ok b -> 1 <= br b -> 0 <= frsz (bprec b) ->
  (blo b * p2 (frsz (bprec b)) == inject_Z L)%Q -> Z.even (x - L) = true -> bip_result b (x + 1) = bip_result b x.
Proof.
  intros b x L Hs Hr HP HL He. assert (reduced b (x + 1) = reduced b x) as E.
  { unfold reduced. rewrite (Qfloor_int _ L HL). rewrite (Z.shiftr_div_pow2 (x + 1 - L) (br b)), (Z.shiftr_div_pow2 (x - L) (br b)) by lia.
    assert ((x + 1 - L) / 2 ^ br b = (x - L) / 2 ^ br b) as ->; [|reflexivity].
    apply Zeven_bool_iff in He. destruct (Zeven_ex _ He) as [k Hk].
    replace (2 ^ br b) with (2 * 2 ^ (br b - 1)) by (rewrite <- Z.pow_succ_r by lia; f_equal; lia).
    assert (0 < 2 ^ (br b - 1)) by (apply Z.pow_pos_nonneg; lia).
    rewrite <- !Z.div_div by lia. f_equal. replace (x + 1 - L) with (1 + k * 2) by lia. replace (x - L) with (k * 2) by lia.
    rewrite Z.div_add, Z.div_mul by lia. reflexivity. }
  unfold bip_result, approx. rewrite E. reflexivity.
Qed.
Example bip_wide_ex : let b := mkbip (fun x => 1 / x)%Q 1 2 6 5 5 3 {| isz := 3; frsz := 13; sgn := false |} in
  (1 * p2 13 == inject_Z 8192)%Q /\ Z.even (8192 - 8192) = true /\ 1 <= br b.
Proof. cbv zeta. split; [reflexivity|]. split; [reflexivity|cbn; lia]. Qed.

(* ---- 2. the error of the tables ---- *)
(* the slopes of the function on the i-th interval of the slopes are between m and M *)
Definition sub_lo (b : bip) (i : Z) : Q := (blo b + inject_Z i * p2 (br b) * p2 (- balpha b))%Q.
Definition sub_hi (b : bip) (i : Z) : Q := (sub_lo b i + p2 (br b) * p2 (- balpha b))%Q.
Definition slopes_in (b : bip) (i : Z) (m M : Q) : Prop := forall u v, (sub_lo b i <= u)%Q -> (u <= v)%Q -> (v <= sub_hi b i)%Q ->
  (m * (v - u) <= bf b v - bf b u <= M * (v - u))%Q.
Definition respects (b : bip) : Prop := forall u v, (u == v)%Q -> (bf b u == bf b v)%Q.

Lemma slope_between : forall b i m M, slopes_in b i m M -> (m <= slope b i <= M)%Q.
Proof.
  intros b i m M H.
  assert (0 < delta_u b)%Q as Hd.
  { unfold delta_u. pose proof (p2_pos (br b)). pose proof (p2_pos (- balpha b)). pose proof (p2_pos (-15)). repeat apply Qmult_lt_0_compat; auto. }
  assert (delta_u b <= p2 (br b) * p2 (- balpha b))%Q as Hd2.
  { unfold delta_u. pose proof (p2_pos (br b)). pose proof (p2_pos (- balpha b)).
    assert (0 < p2 (br b) * p2 (- balpha b))%Q by (apply Qmult_lt_0_compat; auto).
    assert (p2 (-15) <= 1)%Q by (change (p2 (-15)) with (1 # 32768); lra). nra. }
  set (u := (slope_x b i - delta_u b / 2)%Q). set (v := (slope_x b i + delta_u b / 2)%Q).
  assert (v - u == delta_u b)%Q as Huv by (unfold u, v; field).
  assert (slope_x b i == sub_lo b i + (1 # 2) * (p2 (br b) * p2 (- balpha b)))%Q as Es.
  { unfold slope_x, sub_lo. ring. }
  assert (delta_u b / 2 == (1 # 2) * delta_u b)%Q as Eh by field.
  destruct (H u v) as [A B].
  - unfold u. rewrite Eh, Es. lra.
  - unfold u, v. rewrite Eh. lra.
  - unfold v, sub_hi. rewrite Eh, Es. lra.
  - unfold slope. fold u v. rewrite Huv in A, B. split.
    + apply Qle_shift_div_l; [exact Hd|]. exact A.
    + apply Qle_shift_div_r; [exact Hd|]. exact B.
Qed.

Lemma line_error : forall f_x f_c s m M d, (m <= s <= M)%Q ->
  ((0 <= d)%Q -> (m * d <= f_x - f_c <= M * d)%Q) -> ((d <= 0)%Q -> (m * (- d) <= f_c - f_x <= M * (- d))%Q) ->
  (Qabs (f_c + s * d - f_x) <= (M - m) * Qabs d)%Q.
Proof.
  intros fx fc s m M d Hs Hp Hn. apply Qabs_Qle_condition. destruct (Qlt_le_dec 0 d) as [H|H].
  - rewrite (Qabs_pos d) by lra. specialize (Hp ltac:(lra)). nra.
  - rewrite (Qabs_neg d) by lra. specialize (Hn H). nra.
Qed.

Lemma round_close : forall F v, (Qabs (fx_round F FxRN v - v) <= (1 # 2) * p2 (- frsz F))%Q.
Proof. intros F v. exact (proj1 (fx_round_nearest F v)). Qed.

Definition table_sum (b : bip) (SF OF : fxfmt) (n : Z) : Q :=
  (table_iv b SF (n / 2 ^ bgamma b) + table_offset b OF (n / 2 ^ (bbeta b + bgamma b) * 2 ^ bgamma b + n mod 2 ^ bgamma b))%Q.

Theorem bip_table_error : forall b SF OF n m M, sizes_ok b -> respects b -> 0 <= n < 2 ^ width b ->
  slopes_in b (n / 2 ^ (bbeta b + bgamma b)) m M ->
  (Qabs (table_sum b SF OF n - bf b (table_x b n)) <=
     (M - m) * offset_x b + (1 # 2) * p2 (- frsz SF) + (1 # 2) * p2 (- frsz OF))%Q.
Proof.
  intros b SF OF n m M Hs Hre Hn Hsl. pose proof Hs as (Ha & Hb & Hg).
  set (al := balpha b) in *. set (be := bbeta b) in *. set (ga := bgamma b) in *.
  set (i := n / 2 ^ (be + ga)) in *. set (q := n / 2 ^ ga). set (k := n mod 2 ^ ga).
  pose proof (pow_ge1 ga ltac:(lia)) as Pg. pose proof (pow_ge1 be ltac:(lia)) as Pb.
  assert (0 <= k < 2 ^ ga) as Hk by (apply Z.mod_pos_bound; lia).
  assert (n = q * 2 ^ ga + k) as En by (unfold q, k; pose proof (Z.div_mod n (2 ^ ga)); lia).
  assert (q / 2 ^ be = i) as Eq.
  { unfold q, i. rewrite Z.div_div by lia. rewrite <- Z.pow_add_r by lia. f_equal. f_equal. lia. }
  set (j := q mod 2 ^ be). assert (0 <= j < 2 ^ be) as Hj by (apply Z.mod_pos_bound; lia).
  assert (q = i * 2 ^ be + j) as Eqj by (unfold j; pose proof (Z.div_mod q (2 ^ be)); rewrite Eq in *; lia).
  assert ((i * 2 ^ ga + k) / 2 ^ ga = i) as Et by (rewrite Z.add_comm, Z.div_add, Z.div_small by lia; lia).
  assert ((i * 2 ^ ga + k) mod 2 ^ ga = k) as Etm by (rewrite Z.add_comm, Z.mod_add, Z.mod_small by lia; lia).
  pose proof (slope_between b i m M Hsl) as Hsb. set (s := slope b i) in *.
  (* scaled quantities *)
  set (A := (p2 (br b) * p2 (- al))%Q). set (H := (A * p2 (- be))%Q). set (step := (H * p2 (- ga))%Q).
  pose proof (p2_pos (br b)) as PR. pose proof (p2_pos (- al)) as Pa. pose proof (p2_pos (- be)) as Pb'. pose proof (p2_pos (- ga)) as Pg'.
  assert (0 < A)%Q as HA by (unfold A; apply Qmult_lt_0_compat; auto).
  assert (0 < H)%Q as HH by (unfold H; apply Qmult_lt_0_compat; auto).
  assert (0 < step)%Q as HS by (unfold step; apply Qmult_lt_0_compat; auto).
  assert (H * inject_Z (2 ^ be) == A)%Q as EH.
  { unfold H. rewrite <- p2_Z by lia. rewrite <- Qmult_assoc, p2_opp. ring. }
  assert (step * inject_Z (2 ^ ga) == H)%Q as ES.
  { unfold step. rewrite <- p2_Z by lia. rewrite <- Qmult_assoc, p2_opp. ring. }
  assert (p2 (- (al + be)) * p2 (br b) == H)%Q as E1.
  { unfold H, A. replace (- (al + be)) with (- al + - be) by lia. rewrite p2_plus. ring. }
  assert (offset_x b == (1 # 2) * H)%Q as Eo by (unfold offset_x; fold al be; rewrite <- E1; ring).
  assert (offset_step b == step)%Q as Est.
  { unfold offset_step. fold al be ga. unfold step, H, A.
    pose proof (p2_nz (al + be + ga)). pose proof (p2_opp (al + be + ga)) as O.
    assert (/ p2 (al + be + ga) == p2 (- al) * p2 (- be) * p2 (- ga))%Q as I.
    { replace (- (al + be + ga)) with (- al + - be + - ga) in O by lia. rewrite !p2_plus in O.
      rewrite <- (Qmult_1_l (/ _)). rewrite <- O. rewrite !p2_plus. field. repeat split; apply p2_nz. }
    unfold Qdiv. rewrite I. ring. }
  assert (table_x b n == blo b + inject_Z n * step)%Q as Ex.
  { rewrite <- Est. unfold table_x, offset_step. fold al be ga. field. apply p2_nz. }
  set (c := (iv_x b q + offset_x b)%Q).
  assert (c == blo b + inject_Z q * H + (1 # 2) * H)%Q as Ec.
  { unfold c. rewrite Eo. unfold iv_x. fold al be. rewrite <- E1. ring. }
  assert (inject_Z n == inject_Z q * inject_Z (2 ^ ga) + inject_Z k)%Q as Enq by (rewrite En at 1; rewrite inject_Z_plus, inject_Z_mult; reflexivity).
  assert (inject_Z q == inject_Z i * inject_Z (2 ^ be) + inject_Z j)%Q as Eqq by (rewrite Eqj at 1; rewrite inject_Z_plus, inject_Z_mult; reflexivity).
  set (d := (inject_Z k * step - (1 # 2) * H)%Q).
  assert (table_x b n == c + d)%Q as Ed.
  { rewrite Ex, Ec, Enq. unfold d. rewrite <- ES. ring. }
  assert (0 <= inject_Z k <= inject_Z (2 ^ ga))%Q as Hkq.
  { change 0%Q with (inject_Z 0). rewrite <- !Zle_Qle. lia. }
  assert (0 <= inject_Z k * step <= H)%Q as Hks.
  { split; [apply Qmult_le_0_compat; lra|]. rewrite <- ES. rewrite Qmult_comm. apply Qmult_le_l; [exact HS|]. tauto. }
  assert (0 <= inject_Z j)%Q as Hj0 by (change 0%Q with (inject_Z 0); rewrite <- Zle_Qle; lia).
  assert (inject_Z j * H <= A - H)%Q as HjH.
  { assert (inject_Z j <= inject_Z (2 ^ be) - 1)%Q as J.
    { assert (inject_Z (j + 1) <= inject_Z (2 ^ be))%Q as J' by (rewrite <- Zle_Qle; lia).
      rewrite inject_Z_plus in J'. change (inject_Z 1) with 1%Q in J'. lra. }
    rewrite <- EH. nra. }
  assert (0 <= inject_Z j * H)%Q as Hj1 by (apply Qmult_le_0_compat; lra).
  assert (sub_lo b i == blo b + inject_Z i * A)%Q as El by (unfold sub_lo, A; fold al; ring).
  assert (sub_hi b i == blo b + inject_Z i * A + A)%Q as Eh by (unfold sub_hi; rewrite El; unfold A; fold al; ring).
  assert (c == blo b + inject_Z i * A + inject_Z j * H + (1 # 2) * H)%Q as Ec2 by (rewrite Ec, Eqq, <- EH; ring).
  assert (c + d == blo b + inject_Z i * A + inject_Z j * H + inject_Z k * step)%Q as Ecd by (rewrite Ec2; unfold d; ring).
  assert (Qabs (bf b c + s * d - bf b (c + d)) <= (M - m) * Qabs d)%Q as LE.
  { apply line_error; [exact Hsb| |].
    - intro D. destruct (Hsl c (c + d)%Q) as [X Y]; [rewrite El, Ec2; lra|lra|rewrite Eh, Ecd; lra|].
      assert (c + d - c == d)%Q as Z by ring. rewrite Z in X, Y. split; assumption.
    - intro D. destruct (Hsl (c + d)%Q c) as [X Y]; [rewrite El, Ecd; lra|lra|rewrite Eh, Ec2; lra|].
      assert (c - (c + d) == - d)%Q as Z by ring. rewrite Z in X, Y. split; assumption. }
  assert (Qabs d <= offset_x b)%Q as Hd.
  { rewrite Eo. apply Qabs_Qle_condition. unfold d. lra. }
  assert ((M - m) * Qabs d <= (M - m) * offset_x b)%Q as LE2.
  { destruct (Qlt_le_dec m M); [apply Qmult_le_l; lra|]. assert (M - m == 0)%Q as Z by lra. rewrite Z. lra. }
  unfold table_sum. fold ga be. fold i q k.
  assert (Qabs (table_iv b SF q - (bf b c - (1 # 2) * H * s)) <= (1 # 2) * p2 (- frsz SF))%Q as TI.
  { unfold table_iv. pose proof (round_close SF (iv_y b q)) as R.
    assert (iv_y b q == bf b c - (1 # 2) * H * s)%Q as Ey.
    { unfold iv_y. fold be. rewrite Eq. fold s. fold c. rewrite Eo. ring. }
    rewrite Ey in R at 2. exact R. }
  assert (Qabs (table_offset b OF (i * 2 ^ ga + k) - s * inject_Z k * step) <= (1 # 2) * p2 (- frsz OF))%Q as TO.
  { assert (offset b (i * 2 ^ ga + k) == s * inject_Z k * step)%Q as Ey.
    { unfold offset. fold ga. rewrite Et, Etm. fold s. rewrite Est. reflexivity. }
    unfold table_offset. destruct (1 <=? i * 2 ^ ga + k).
    - pose proof (round_close OF (offset b (i * 2 ^ ga + k))) as R. rewrite Ey in R at 2. exact R.
    - rewrite Ey. setoid_replace (s * inject_Z k * step - s * inject_Z k * step)%Q with 0%Q by ring. cbn [Qabs Z.abs].
      pose proof (p2_pos (- frsz OF)). change (Qabs 0) with 0%Q. lra. }
  assert (bf b (table_x b n) == bf b (c + d)%Q)%Q as Ef by (apply Hre; exact Ed).
  rewrite Ef.
  apply Qabs_Qle_condition in TI, TO, LE. apply Qabs_Qle_condition.
  assert (s * d == s * inject_Z k * step - (1 # 2) * H * s)%Q as Esd by (unfold d; ring).
  rewrite Esd in LE. lra.
Qed.

(* the sum is what the entity reads *)
Lemma approx_sum : forall b SF OF x L, sizes_ok b -> 0 <= br b -> 0 <= frsz (bprec b) ->
  (blo b * p2 (frsz (bprec b)) == inject_Z L)%Q -> 0 <= x - L < 2 ^ (br b + frsz (bprec b)) ->
  approx b SF OF x = table_sum b SF OF (bval (reduced b x)) /\ 0 <= bval (reduced b x) < 2 ^ width b.
Proof.
  intros b SF OF x L Hs Hr HP HL Hx. destruct (reduced_value b x L Hs Hr HP HL Hx) as [E B]. split; [|exact B].
  unfold approx. set (n := bval (reduced b x)) in *.
  assert (reduced b x = mkbv (width b) n) as -> by (unfold n; rewrite E; reflexivity).
  destruct (bip_indices b n Hs B) as (E1 & E2 & _). cbv zeta in *. rewrite E1, E2. reflexivity.
Qed.

(* ---- 3. the result ---- *)
Theorem bip_result_error : forall b SF OF x L m M, sizes_ok b -> respects b -> 0 <= br b -> 0 <= frsz (bprec b) <= width b ->
  (blo b * p2 (frsz (bprec b)) == inject_Z L)%Q -> 0 <= x - L < 2 ^ (br b + frsz (bprec b)) -> (2 ^ br b | x - L) ->
  slopes_in b (bval (reduced b x) / 2 ^ (bbeta b + bgamma b)) m M ->
  storage_format b = Some SF -> offset_format b = Some OF ->
  let P := frsz (bprec b) in
  let fx := bf b (inject_Z x * p2 (- P))%Q in
  let e := ((M - m) * offset_x b + (1 # 2) * p2 (- frsz SF) + (1 # 2) * p2 (- frsz OF))%Q in
  (e <= fx)%Q -> (fx + e < p2 (isz (bprec b)))%Q -> 0 <= fx_bits (bprec b) ->
  exists r, bip_result b x = Some r /\ (fx - e - p2 (- P) < inject_Z r * p2 (- P) <= fx + e)%Q.
Proof.
  intros b SF OF x L m M Hs Hre Hr HP HL Hx Hd Hsl ES EO P fx e Hlo Hhi Hb.
  destruct (approx_sum b SF OF x L Hs Hr (proj1 HP) HL Hx) as [EA Bn].
  pose proof (bip_table_error b SF OF _ m M Hs Hre Bn Hsl) as TE. fold e in TE.
  pose proof (proj2 (bip_argument b x L Hs Hr HP HL Hx) Hd) as EX. fold P in EX.
  assert (bf b (table_x b (bval (reduced b x))) == fx)%Q as EF by (apply Hre; exact EX).
  rewrite EF in TE. rewrite <- EA in TE. apply Qabs_Qle_condition in TE.
  set (a := approx b SF OF x) in *.
  exists (convert_out b a). split; [unfold bip_result; rewrite ES, EO; reflexivity|].
  unfold convert_out. fold P. pose proof (p2_pos P) as PP. pose proof (p2_pos (- P)) as PN. pose proof (p2_opp P) as PO.
  pose proof (Qfloor_le (a * p2 P)) as F1. pose proof (Qlt_floor (a * p2 P)) as F2. rewrite inject_Z_plus in F2. change (inject_Z 1) with 1%Q in F2.
  assert (0 <= Qfloor (a * p2 P) < 2 ^ fx_bits (bprec b)) as B.
  { split.
    - assert (inject_Z (-1) < inject_Z (Qfloor (a * p2 P)))%Q as K.
      { change (inject_Z (-1)) with (-1)%Q. assert (0 <= a)%Q by lra. assert (0 <= a * p2 P)%Q by (apply Qmult_le_0_compat; lra). lra. }
      rewrite <- Zlt_Qlt in K. lia.
    - rewrite Zlt_Qlt. rewrite <- p2_Z by exact Hb. unfold fx_bits. fold P. rewrite p2_plus.
      assert (a < p2 (isz (bprec b)))%Q as K by lra.
      assert (a * p2 P < p2 (isz (bprec b)) * p2 P)%Q by (apply Qmult_lt_r; assumption). lra. }
  rewrite (Z.mod_small _ _ B).
  set (F := inject_Z (Qfloor (a * p2 P))) in *.
  assert (a * p2 P * p2 (- P) == a)%Q as EQ by (rewrite <- Qmult_assoc; rewrite (Qmult_comm (p2 P)), PO; ring).
  assert (F * p2 (- P) <= a)%Q by (rewrite <- EQ; apply Qmult_le_compat_r; lra).
  assert (a < F * p2 (- P) + p2 (- P))%Q.
  { rewrite <- EQ at 1. setoid_replace (F * p2 (- P) + p2 (- P))%Q with ((F + 1) * p2 (- P))%Q by ring. apply Qmult_lt_r; assumption. }
  lra.
Qed.

(* the default function: all the 2^15 inputs of [1, 2) *)
Lemma default_respects : respects default_bip.
Proof. intros u v H. cbn [bf default_bip]. rewrite H. reflexivity. Qed.
Lemma inv_slopes : forall A B u v, (1 <= A)%Q -> (A <= u)%Q -> (u <= v)%Q -> (v <= B)%Q -> (B <= A + (1 # 64))%Q ->
  (- (1 / (A * A)) * (v - u) <= 1 / v - 1 / u <= (- (1 / (A * A)) + (1 # 32)) * (v - u))%Q.
Proof.
  intros A B u v HA Hu Huv Hv HB.
  assert (0 < u)%Q by lra. assert (0 < v)%Q by lra.
  assert (1 / v - 1 / u == - (/ (u * v)) * (v - u))%Q as E by (field; split; lra).
  rewrite E.
  assert (0 < u * v)%Q by nra. assert (0 < A * A)%Q by nra.
  assert (/ (u * v) <= 1 / (A * A))%Q as I1.
  { unfold Qdiv. rewrite Qmult_1_l. apply Qle_shift_inv_r; [assumption|]. 
    setoid_replace (/ (A * A) * (u * v))%Q with ((u * v) / (A * A))%Q by (field; lra).
    apply Qle_shift_div_l; [assumption|]. nra. }
  assert (1 / (A * A) - (1 # 32) <= / (u * v))%Q as I2.
  { apply Qle_shift_inv_l; [assumption|].
    setoid_replace ((1 / (A * A) - (1 # 32)) * (u * v))%Q with ((u * v) * (1 - (1 # 32) * (A * A)) / (A * A))%Q by (field; lra).
    apply Qle_shift_div_r; [assumption|].
    assert (u <= A + (1 # 64))%Q by lra. assert (v <= A + (1 # 64))%Q by lra.
    assert (u * v <= (A + (1 # 64)) * (A + (1 # 64)))%Q by nra.
    destruct (Qlt_le_dec 0 (1 - (1 # 32) * (A * A))) as [P|P]; [|nra].
    assert ((A + (1 # 64)) * (A + (1 # 64)) * (1 - (1 # 32) * (A * A)) <= A * A)%Q; [|nra].
    assert ((A + (1 # 64)) * (A + (1 # 64)) == A * A + (1 # 32) * A + (1 # 4096))%Q as E2 by ring.
    rewrite E2. assert (1 <= A * A)%Q by nra. assert (A <= A * A)%Q by nra.
    assert (1 <= A * A * A)%Q by nra. assert (A <= A * A * (A * A))%Q by nra. clear - H5 H6 H7 H8 HA. nra. }
  split; [|].
  - assert (0 <= (1 / (A * A) - / (u * v)) * (v - u))%Q by (apply Qmult_le_0_compat; lra). lra.
  - assert (0 <= (/ (u * v) - (1 / (A * A) - (1 # 32))) * (v - u))%Q by (apply Qmult_le_0_compat; lra). lra.
Qed.
Lemma default_slopes : forall i, 0 <= i -> slopes_in default_bip i
  (- (1 / (sub_lo default_bip i * sub_lo default_bip i))) (- (1 / (sub_lo default_bip i * sub_lo default_bip i)) + (1 # 32)).
Proof.
  intros i Hi u v Hu Huv Hv.
  assert (1 <= sub_lo default_bip i)%Q as H1.
  { unfold sub_lo. cbn [blo br balpha default_bip]. change (p2 0) with 1%Q. change (p2 (Z.opp 6)) with (1 # 64).
    assert (0 <= inject_Z i)%Q by (change 0%Q with (inject_Z 0); rewrite <- Zle_Qle; exact Hi). lra. }
  cbn [bf default_bip]. apply (inv_slopes _ (sub_hi default_bip i)); auto.
  unfold sub_hi. cbn [blo br balpha default_bip]. change (p2 0) with 1%Q. change (p2 (Z.opp 6)) with (1 # 64). lra.
Qed.
Lemma default_formats : storage_format default_bip = Some {| isz := 1; frsz := 20; sgn := false |} /\
  offset_format default_bip = Some {| isz := -10; frsz := 27; sgn := true |}.
Proof. split; vm_compute; reflexivity. Qed.
Lemma default_sizes : sizes_ok default_bip.
Proof. repeat split; cbn; lia. Qed.

(* error of the sum below 2^-17 (1 + 1/16 + 2^-11) *)
Definition default_bound : Q := ((1 # 131072) + (1 # 2097152) + (1 # 268435456))%Q.
Lemma default_bound_eq : forall m, ((m + (1 # 32) - m) * offset_x default_bip + (1 # 2) * p2 (-20) + (1 # 2) * p2 (-27) == default_bound)%Q.
Proof.
  intro m. unfold offset_x, default_bound. cbn [balpha bbeta br default_bip].
  change (p2 (Z.opp (6 + 5))) with (1 # 2048). change (p2 0) with 1%Q. change (p2 (-20)) with (1 # 1048576). change (p2 (-27)) with (1 # 134217728). ring.
Qed.
Theorem bip_default : forall x, 2 ^ 15 <= x < 2 ^ 16 ->
  exists r, bip_result default_bip x = Some r /\
    (1 / (inject_Z x / 32768) - default_bound - (1 # 32768) < inject_Z r / 32768 <= 1 / (inject_Z x / 32768) + default_bound)%Q.
Proof.
  intros x Hx. destruct default_formats as [ES EO].
  set (i := bval (reduced default_bip x) / 2 ^ 10).
  assert (0 <= i) as Hi.
  { unfold i. apply Z.div_pos; [|lia]. refine (proj1 (proj2 (reduced_value default_bip x (2 ^ 15) default_sizes _ _ _ _))); cbn [br bprec default_bip frsz]; [lia|lia|reflexivity|lia]. }
  pose proof (default_slopes i Hi) as Hsl.
  set (m := (- (1 / (sub_lo default_bip i * sub_lo default_bip i)))%Q) in *.
  assert (1 <= inject_Z x * (1 # 32768))%Q as X1.
  { assert (inject_Z (2 ^ 15) <= inject_Z x)%Q as K by (rewrite <- Zle_Qle; lia). change (inject_Z (2 ^ 15)) with 32768%Q in K. lra. }
  assert (inject_Z x * (1 # 32768) < 2)%Q as X2.
  { assert (inject_Z x < inject_Z (2 ^ 16))%Q as K by (rewrite <- Zlt_Qlt; lia). change (inject_Z (2 ^ 16)) with 65536%Q in K. lra. }
  set (y := (inject_Z x * (1 # 32768))%Q) in *.
  assert (bf default_bip (inject_Z x * p2 (- 15)) == 1 / y)%Q as EF.
  { cbn [bf default_bip]. change (p2 (-15)) with (1 # 32768). reflexivity. }
  assert ((1 # 2) < 1 / y)%Q as Y1 by (apply Qlt_shift_div_l; lra).
  assert (1 / y <= 1)%Q as Y2 by (apply Qle_shift_div_r; lra).
  destruct (bip_result_error default_bip {| isz := 1; frsz := 20; sgn := false |} {| isz := -10; frsz := 27; sgn := true |}
    x (2 ^ 15) m (m + (1 # 32))%Q default_sizes default_respects) as (r & E & B).
  - cbn; lia.
  - cbn; lia.
  - reflexivity.
  - cbn [br bprec default_bip frsz]. lia.
  - exists (x - 2 ^ 15). cbn [br default_bip]. change (2 ^ 0) with 1. lia.
  - exact Hsl.
  - exact ES.
  - exact EO.
  - cbn [frsz bprec default_bip]. change (Z.opp 20) with (-20). change (Z.opp 27) with (-27). rewrite default_bound_eq. change (Z.opp 15) with (-15). rewrite EF. unfold default_bound. lra.
  - cbn [frsz bprec default_bip isz]. change (Z.opp 20) with (-20). change (Z.opp 27) with (-27). rewrite default_bound_eq. change (Z.opp 15) with (-15). rewrite EF. change (p2 1) with 2%Q. unfold default_bound. lra.
  - cbn; lia.
  - exists r. split; [exact E|]. cbn [frsz bprec default_bip] in B. change (Z.opp 20) with (-20) in B. change (Z.opp 27) with (-27) in B. change (Z.opp 15) with (-15) in B. rewrite default_bound_eq in B. rewrite EF in B.
    change (p2 (-15)) with (1 # 32768) in B.
    assert (~ inject_Z x == 0)%Q as NX by (intro K; unfold y in X1; rewrite K in X1; lra).
    assert (1 / (inject_Z x / 32768) == 1 / y)%Q as -> by (unfold y; field; exact NX).
    assert (inject_Z r / 32768 == inject_Z r * (1 # 32768))%Q as -> by (field). exact B.
Qed.
Example bip_default_ex : bip_result default_bip 49152 = Some 21845 /\ 2 ^ 15 <= 49152 < 2 ^ 16.
Proof. split; [vm_compute; reflexivity|lia]. Qed.

(* ---- 4. the error that is logged ---- *)
Lemma py_max_ge : forall a c, (a <= py_max a c)%Q /\ (c <= py_max a c)%Q.
Proof.
  intros a c. unfold py_max. destruct (Qle_bool c a) eqn:E; cbn [negb].
  - apply Qle_bool_iff in E. split; [apply Qle_refl|exact E].
  - split; [|apply Qle_refl]. destruct (Qlt_le_dec a c) as [H|H]; [lra|]. apply Qle_bool_iff in H. congruence.
Qed.
Lemma py_max_case : forall a c, py_max a c = a \/ py_max a c = c.
Proof. intros. unfold py_max. destruct (negb (Qle_bool c a)); auto. Qed.
Lemma fold_grow : forall (A : Type) (g : Q -> A -> Q) l e, (forall e a, (e <= g e a)%Q) -> (e <= fold_left g l e)%Q.
Proof.
  intros A g l. induction l as [|a l IH]; intros e H; [apply Qle_refl|]. cbn [fold_left].
  apply (Qle_trans _ (g e a)); [apply H|apply IH; exact H].
Qed.
Lemma fold_reach : forall (A : Type) (g : Q -> A -> Q) (v : A -> Q -> Prop) l e a, (forall e a, (e <= g e a)%Q) ->
  (forall e x, v a x -> (x <= g e a)%Q) -> In a l -> forall x, v a x -> (x <= fold_left g l e)%Q.
Proof.
  intros A g v l. induction l as [|c l IH]; intros e a Hg Hv Hin x Hx; [destruct Hin|]. cbn [fold_left]. destruct Hin as [->|Hin].
  - apply (Qle_trans _ (g e a)); [apply Hv; exact Hx|apply fold_grow; exact Hg].
  - apply (IH (g e c) a Hg Hv Hin x Hx).
Qed.
Lemma fold_from : forall (A : Type) (P : Q -> Prop) (g : Q -> A -> Q) l e, P e -> (forall e a, In a l -> P e -> P (g e a)) -> P (fold_left g l e).
Proof.
  intros A P g l. induction l as [|a l IH]; intros e He H; [exact He|]. cbn [fold_left]. apply IH; [apply H; [left; reflexivity|exact He]|].
  intros e' a' Ha. apply H. right. exact Ha.
Qed.
Lemma in_range : forall n i, In i (range n) <-> 0 <= i < n.
Proof.
  intros n i. unfold range. rewrite in_map_iff. split.
  - intros (k & <- & H). apply in_seq in H. lia.
  - intro H. exists (Z.to_nat i). split; [lia|]. apply in_seq. lia.
Qed.
(* it is the largest error of the tables *)
Theorem bip_logged_error : forall b SF OF, sizes_ok b ->
  (forall n, 0 <= n < 2 ^ width b -> (Qabs (table_sum b SF OF n - bf b (table_x b n)) <= logged_error b SF OF)%Q) /\
  exists n, 0 <= n < 2 ^ width b /\ (logged_error b SF OF == Qabs (table_sum b SF OF n - bf b (table_x b n)))%Q.
Proof.
  intros b SF OF Hs. pose proof Hs as (Ha & Hb & Hg).
  set (al := balpha b) in *. set (be := bbeta b) in *. set (ga := bgamma b) in *.
  assert (forall i j k, 0 <= i < 2 ^ al -> 0 <= j < 2 ^ be -> 0 <= k < 2 ^ ga ->
    let n := (i * 2 ^ be + j) * 2 ^ ga + k in
    0 <= n < 2 ^ width b /\ (local_error b SF OF i j k == Qabs (table_sum b SF OF n - bf b (table_x b n)))%Q) as LE.
  { intros i j k Hi Hj Hk n.
    assert (n / 2 ^ ga = i * 2 ^ be + j) as E1 by (unfold n; rewrite Z.add_comm, Z.div_add, Z.div_small by lia; lia).
    assert (n mod 2 ^ ga = k) as E2 by (unfold n; rewrite Z.add_comm, Z.mod_add, Z.mod_small by lia; lia).
    assert (n / 2 ^ (be + ga) = i) as E3.
    { replace (be + ga) with (ga + be) by lia. rewrite Z.pow_add_r by lia. pose proof (pow_ge1 ga ltac:(lia)). pose proof (pow_ge1 be ltac:(lia)).
      rewrite <- Z.div_div by lia. rewrite E1. rewrite Z.add_comm, Z.div_add, Z.div_small by lia. lia. }
    split.
    - unfold width. fold al be ga. rewrite !Z.pow_add_r by lia. unfold n.
      assert (0 <= i * 2 ^ be + j <= 2 ^ al * 2 ^ be - 1) as T by nia.
      clearbody al be ga. clear - T Hk. generalize dependent (i * 2 ^ be + j). generalize (2 ^ al * 2 ^ be). intros u t T. nia.
    - unfold local_error. fold be ga. fold n. unfold table_sum. fold be ga. rewrite E1, E2, E3. rewrite <- Qabs_opp. apply Qabs_wd. ring. }
  assert (forall n, 0 <= n < 2 ^ width b -> exists i j k, 0 <= i < 2 ^ al /\ 0 <= j < 2 ^ be /\ 0 <= k < 2 ^ ga /\ n = (i * 2 ^ be + j) * 2 ^ ga + k) as DE.
  { intros n Hn. pose proof (pow_ge1 ga ltac:(lia)). pose proof (pow_ge1 be ltac:(lia)). exists (n / 2 ^ ga / 2 ^ be), ((n / 2 ^ ga) mod 2 ^ be), (n mod 2 ^ ga).
    assert (0 <= n / 2 ^ ga < 2 ^ (al + be)) as Q1.
    { split; [apply Z.div_pos; lia|]. apply Z.div_lt_upper_bound; [lia|]. rewrite <- Z.pow_add_r by lia. unfold width in Hn. fold al be ga in Hn.
      replace (ga + (al + be)) with (al + be + ga) by lia. lia. }
    split; [split; [apply Z.div_pos; lia|apply Z.div_lt_upper_bound; [lia|]; rewrite <- Z.pow_add_r by lia; replace (be + al) with (al + be) by lia; lia]|].
    split; [apply Z.mod_pos_bound; lia|]. split; [apply Z.mod_pos_bound; lia|].
    pose proof (Z.div_mod n (2 ^ ga) ltac:(lia)). pose proof (Z.div_mod (n / 2 ^ ga) (2 ^ be) ltac:(lia)). nia. }
  set (g3 := fun i j e k => py_max e (local_error b SF OF i j k)).
  set (g2 := fun i e j => fold_left (g3 i j) (range (2 ^ ga)) e).
  set (g1 := fun e i => fold_left (g2 i) (range (2 ^ be)) e).
  assert (logged_error b SF OF = fold_left g1 (range (2 ^ al)) 0%Q) as EL by reflexivity.
  assert (forall i j e k, (e <= g3 i j e k)%Q) as M3 by (intros; apply py_max_ge).
  assert (forall i e j, (e <= g2 i e j)%Q) as M2 by (intros; apply fold_grow; intros; apply M3).
  assert (forall e i, (e <= g1 e i)%Q) as M1 by (intros; apply fold_grow; intros; apply M2).
  split.
  - intros n Hn. destruct (DE n Hn) as (i & j & k & Hi & Hj & Hk & ->).
    destruct (LE i j k Hi Hj Hk) as [_ <-]. rewrite EL.
    apply (fold_reach Z g1 (fun a x => a = i /\ x = local_error b SF OF i j k) _ _ i); auto; [|apply in_range; exact Hi].
    intros e x [_ ->]. apply (fold_reach Z (g2 i) (fun a x => a = j /\ x = local_error b SF OF i j k) _ _ j); auto; [|apply in_range; exact Hj].
    intros e' x [_ ->]. apply (fold_reach Z (g3 i j) (fun a x => a = k /\ x = local_error b SF OF i j k) _ _ k); auto; [|apply in_range; exact Hk].
    intros e'' x [_ ->]. apply py_max_ge.
  - set (P := fun e : Q => exists n, 0 <= n < 2 ^ width b /\ ((e <= 0)%Q \/ (e == Qabs (table_sum b SF OF n - bf b (table_x b n)))%Q)).
    assert (0 <= 0 < 2 ^ width b) as H0 by (pose proof (pow_ge1 (width b) ltac:(unfold width; lia)); lia).
    assert (P (logged_error b SF OF)) as PL.
    { rewrite EL. apply fold_from; [exists 0; split; [exact H0|left; apply Qle_refl]|]. intros e i Hi Pe. apply in_range in Hi.
      apply fold_from; [exact Pe|]. intros e1 j Hj Pe1. apply in_range in Hj.
      apply fold_from; [exact Pe1|]. intros e2 k Hk Pe2. apply in_range in Hk.
      unfold g3. destruct (py_max_case e2 (local_error b SF OF i j k)) as [-> | ->]; [exact Pe2|].
      destruct (LE i j k Hi Hj Hk) as [Bn En]. eexists. split; [exact Bn|right; exact En]. }
    destruct PL as (n & Bn & [E0'|E]); [|exists n; auto].
    exists 0. split; [exact H0|].
    assert (0 <= logged_error b SF OF)%Q by (rewrite EL; apply fold_grow; exact M1).
    assert (Qabs (table_sum b SF OF 0 - bf b (table_x b 0)) <= logged_error b SF OF)%Q as K.
    { destruct (DE 0 H0) as (i & j & k & Hi & Hj & Hk & E0).
      destruct (LE i j k Hi Hj Hk) as [_ LEE]. rewrite <- E0 in LEE. rewrite <- LEE. rewrite EL.
      apply (fold_reach Z g1 (fun a x => a = i /\ x = local_error b SF OF i j k) _ _ i); auto; [|apply in_range; exact Hi].
      intros e x [_ ->]. apply (fold_reach Z (g2 i) (fun a x => a = j /\ x = local_error b SF OF i j k) _ _ j); auto; [|apply in_range; exact Hj].
      intros e' x [_ ->]. apply (fold_reach Z (g3 i j) (fun a x => a = k /\ x = local_error b SF OF i j k) _ _ k); auto; [|apply in_range; exact Hk].
      intros e'' x [_ ->]. apply py_max_ge. }
    pose proof (Qabs_nonneg (table_sum b SF OF 0 - bf b (table_x b 0))). lra.
Qed.
Example bip_logged_ex : forall n, 0 <= n < 2 ^ 16 ->
  (Qabs (table_sum default_bip {| isz := 1; frsz := 20; sgn := false |} {| isz := -10; frsz := 27; sgn := true |} n - bf default_bip (table_x default_bip n)) <= default_bound)%Q.
Proof.
  intros n Hn. assert (0 <= n / 2 ^ 10) as Hi by (apply Z.div_pos; lia).
  pose proof (bip_table_error default_bip {| isz := 1; frsz := 20; sgn := false |} {| isz := -10; frsz := 27; sgn := true |} n _ _
    default_sizes default_respects Hn (default_slopes _ Hi)) as T. cbn [frsz] in T. change (Z.opp 20) with (-20) in T. change (Z.opp 27) with (-27) in T.
  rewrite default_bound_eq in T. exact T.
Qed.

(* ---- 5. what is wrong ---- *)
(* the conversion of the sum truncates: the first test case, 1.0, gives 1 - 2^-15, and the
   error is more than three times the logged one *)
Theorem bip_one_refuted :
  bip_result default_bip (2 ^ 15) = Some (2 ^ 15 - 1) /\ (emulate default_bip FxRN (2 ^ 15) == 1)%Q /\ (emulate default_bip FxRD (2 ^ 15) == 1)%Q /\
  (3 * logged_error default_bip {| isz := 1; frsz := 20; sgn := false |} {| isz := -10; frsz := 27; sgn := true |} < 1 - inject_Z (2 ^ 15 - 1) / 32768)%Q.
Proof.
  split; [vm_compute; reflexivity|]. split; [vm_compute; reflexivity|]. split; [vm_compute; reflexivity|].
  destruct (bip_logged_error default_bip {| isz := 1; frsz := 20; sgn := false |} {| isz := -10; frsz := 27; sgn := true |} default_sizes) as [_ (n & Hn & E)].
  rewrite E. pose proof (bip_logged_ex n Hn) as B.
  assert (1 - inject_Z (2 ^ 15 - 1) / 32768 == 1 # 32768)%Q as -> by reflexivity. unfold default_bound in B. lra.
Qed.

(* the rounding mode is an input that nothing reads: no result agrees with rounding up and
   with rounding down, unless the value is exact *)
Theorem bip_rounding_refuted : forall b x r, let v := bf b (inject_Z x * p2 (- frsz (bprec b)))%Q in
  ~ (v == 0)%Q -> (forall k, ~ (v == inject_Z k * p2 (qlog2 (Qabs v) - frsz (bprec b) + 1))%Q) ->
  ~ ((r == emulate b FxRD x)%Q /\ (r == emulate b FxRU x)%Q).
Proof.
  intros b x r v Hv Hk [H1 H2]. unfold emulate in H1, H2. fold v in H1, H2.
  destruct (Qeq_bool v 0) eqn:E0; [apply Qeq_bool_iff in E0; tauto|].
  set (u := p2 (qlog2 (Qabs v) - frsz (bprec b) + 1)) in *. pose proof (p2_pos (qlog2 (Qabs v) - frsz (bprec b) + 1)) as Pu. fold u in Pu.
  cbn [fx_rnd_fun] in H1, H2. rewrite H1 in H2.
  assert (inject_Z (Qfloor (v / u)) == inject_Z (Qceiling (v / u)))%Q as E by nra.
  pose proof (Qfloor_le (v / u)) as F. pose proof (Qle_ceiling (v / u)) as C.
  apply (Hk (Qfloor (v / u))). assert (v / u == inject_Z (Qfloor (v / u)))%Q as K by lra.
  rewrite <- K. field. lra.
Qed.
(* 1/x on odd inputs other than 1 *)
Lemma inv_not_exact : forall x k e, Z.odd x = true -> 1 < x -> ~ (1 / (inject_Z x * p2 (-15)) == inject_Z k * p2 e)%Q.
Proof.
  intros x k e Ho Hx E.
  assert (exists n, 0 <= n /\ 0 <= n + e /\ 0 <= n + 15) as (n & N1 & N2 & N3) by (exists (Z.abs e + 15); lia).
  assert (inject_Z (k * x * 2 ^ (n + e)) == inject_Z (2 ^ (n + 15)))%Q as E2.
  { rewrite !inject_Z_mult. rewrite <- !p2_Z by lia. rewrite !p2_plus.
    assert (~ inject_Z x == 0)%Q by (apply inj_nz; lia). pose proof (p2_opp 15) as O. change (- (15)) with (-15) in O.
    assert (1 / (inject_Z x * p2 (-15)) == p2 15 / inject_Z x)%Q as E3.
    { rewrite <- O. field. split; [exact H|apply p2_nz]. }
    rewrite E3 in E.
    setoid_replace (inject_Z k * inject_Z x * (p2 n * p2 e))%Q with ((inject_Z k * p2 e) * inject_Z x * p2 n)%Q by ring.
    rewrite <- E. field. exact H. }
  unfold Qeq in E2. cbn [Qnum Qden inject_Z] in E2. rewrite !Z.mul_1_r in E2.
  assert (Z.gcd x (2 ^ (n + 15)) = 1) as G.
  { apply Zgcd_1_rel_prime. apply rel_prime_Zpower_r; [lia|]. apply Zgcd_1_rel_prime.
    apply Zodd_bool_iff in Ho. destruct (Zodd_ex _ Ho) as [m Hm]. subst x. rewrite Z.gcd_comm.
    rewrite Z.add_comm, Z.mul_comm. rewrite Z.gcd_add_mult_diag_r. apply Z.gcd_1_r. }
  assert (x | 2 ^ (n + 15)) as D by (exists (k * 2 ^ (n + e)); lia).
  assert (x | 1) as D1.
  { rewrite <- G. apply Z.gcd_greatest; [apply Z.divide_refl|exact D]. }
  apply Z.divide_1_r_nonneg in D1; lia.
Qed.
Theorem bip_modes_refuted : forall x, 2 ^ 15 < x < 2 ^ 16 -> Z.odd x = true ->
  exists r, bip_result default_bip x = Some r /\
    (~ (inject_Z r * p2 (-15) == emulate default_bip FxRD x)%Q \/ ~ (inject_Z r * p2 (-15) == emulate default_bip FxRU x)%Q).
Proof.
  intros x Hx Ho. destruct (bip_default x ltac:(lia)) as (r & E & _). exists r. split; [exact E|].
  destruct (Qeq_dec (inject_Z r * p2 (-15)) (emulate default_bip FxRD x)) as [H1|H1]; [right|left; exact H1].
  intro H2. refine (bip_rounding_refuted default_bip x _ _ _ (conj H1 H2)).
  - cbn [bf default_bip]. intro K. assert (~ inject_Z x == 0)%Q as NX by (apply inj_nz; lia).
    cbn [frsz bprec default_bip] in K. pose proof (p2_nz (- (15))) as N.
    assert (inject_Z x * p2 (- (15)) * (1 / (inject_Z x * p2 (- (15)))) == 1)%Q as K2 by (field; auto). rewrite K in K2. lra.
  - intros k K. cbn [bf default_bip frsz bprec] in K. exact (inv_not_exact x k _ Ho ltac:(lia) K).
Qed.
Example bip_modes_ex : 2 ^ 15 < 40001 < 2 ^ 16 /\ Z.odd 40001 = true.
Proof. split; [lia|reflexivity]. Qed.

(* the emulation rounds to as many significant bits as there are fraction bits: above 1 it
   cannot even return the inputs *)
Theorem bip_emulation_refuted : forall m x, 2 ^ 15 <= x < 2 ^ 16 -> Z.odd x = true ->
  let b := mkbip (fun x => x) 1 0 6 5 5 3 {| isz := 1; frsz := 15; sgn := false |} in
  ~ (emulate b m x == inject_Z x * p2 (-15))%Q.
Proof.
  intros m x Hx Ho b E. unfold emulate in E. cbn [bf b bprec frsz] in E. change (Z.opp 15) with (-15) in E.
  assert (0 < inject_Z x)%Q as Px by (change 0%Q with (inject_Z 0); rewrite <- Zlt_Qlt; lia).
  pose proof (p2_pos (-15)) as P15. assert (0 < inject_Z x * p2 (-15))%Q as Pv by (apply Qmult_lt_0_compat; assumption).
  destruct (Qeq_bool (inject_Z x * p2 (-15)) 0) eqn:E0; [apply Qeq_bool_iff in E0; lra|].
  assert (qlog2 (Qabs (inject_Z x * p2 (-15))) = 0) as EL.
  { assert (Qabs (inject_Z x * p2 (-15)) == inject_Z x * p2 (-15))%Q as EA by (apply Qabs_pos; lra).
    apply qlog2_unique; rewrite EA; change (p2 (-15)) with (1 # 32768); [change (p2 0) with 1%Q|change (p2 (0 + 1)) with 2%Q].
    - assert (inject_Z (2 ^ 15) <= inject_Z x)%Q as K by (rewrite <- Zle_Qle; lia). change (inject_Z (2 ^ 15)) with 32768%Q in K. lra.
    - assert (inject_Z x < inject_Z (2 ^ 16))%Q as K by (rewrite <- Zlt_Qlt; lia). change (inject_Z (2 ^ 16)) with 65536%Q in K. lra. }
  rewrite EL in E. change (p2 (0 - 15 + 1)) with (1 # 16384) in E. change (p2 (-15)) with (1 # 32768) in E.
  set (z := fx_rnd_fun m (inject_Z x * (1 # 32768) / (1 # 16384))) in E.
  assert (inject_Z (2 * z) == inject_Z x)%Q as K by (rewrite inject_Z_mult; change (inject_Z 2) with 2%Q; lra).
  unfold Qeq in K. cbn [Qnum Qden inject_Z] in K. assert (x = 2 * z) as K2 by lia. rewrite K2, Z.odd_mul in Ho. discriminate Ho.
Qed.

(* the format of the offsets: rounding can reach the power of two that does not fit, and the
   constant of the table is then zero *)
Definition steep : bip := mkbip (fun x => (262143 # 253952) * x)%Q 1 0 6 5 5 3 {| isz := 1; frsz := 15; sgn := false |}.
Theorem bip_offset_refuted : exists O, offset_format steep = Some O /\
  (table_offset steep O 31 == p2 (isz O))%Q /\ fx_encode O (table_offset steep O 31) = None /\
  vhdl_fixed_cst O (table_offset steep O 31) false = Some (LHex [0; 0; 0; 0]).
Proof.
  exists {| isz := -11; frsz := 27; sgn := false |}. split; [vm_compute; reflexivity|]. split; [vm_compute; reflexivity|]. split; vm_compute; reflexivity.
Qed.
(* negative functions are stored in an unsigned format, functions with a zero at a bound have
   no format *)
Theorem bip_sign_refuted : forall b SF i, storage_format b = Some SF -> (table_iv b SF i < 0)%Q -> fx_encode SF (table_iv b SF i) = None.
Proof.
  intros b SF i E H. unfold storage_format in E. destruct (Qeq_bool _ 0); [discriminate|]. injection E as <-.
  set (v := table_iv b _ i) in *. unfold fx_encode. 
  assert (Qle_bool 0 v = false) as E0. { destruct (Qle_bool 0 v) eqn:K; auto. apply Qle_bool_iff in K. lra. }
  cbn [fx_min sgn negb]. rewrite E0. rewrite orb_true_r. reflexivity.
Qed.
Example bip_sign_ex : let b := mkbip (fun x => - 1 / x)%Q 1 0 6 5 5 3 {| isz := 1; frsz := 15; sgn := false |} in
  exists SF, storage_format b = Some SF /\ (table_iv b SF 0 < 0)%Q.
Proof. cbv zeta. eexists. split; [vm_compute; reflexivity|vm_compute; reflexivity]. Qed.
Theorem bip_zero_refuted : forall b, (bf b (blo b) == 0)%Q \/ (bf b (blo b + p2 (br b)) == 0)%Q -> forall x, bip_result b x = None.
Proof.
  intros b H x. unfold bip_result, storage_format.
  assert (Qeq_bool (py_min (Qabs (bf b (blo b + p2 (br b)))) (Qabs (bf b (blo b)))) 0 = true) as ->; [|reflexivity].
  apply Qeq_bool_iff. set (u := bf b (blo b + p2 (br b))) in *. set (v := bf b (blo b)) in *.
  assert (forall z, (z == 0)%Q -> (Qabs z == 0)%Q) as A by (intros z ->; reflexivity).
  pose proof (Qabs_nonneg u). pose proof (Qabs_nonneg v). unfold py_min.
  destruct (Qle_bool (Qabs u) (Qabs v)) eqn:E; cbn [negb].
  - apply Qle_bool_iff in E. destruct H as [H|H]; apply A in H; lra.
  - assert (~ (Qabs u <= Qabs v)%Q) as N by (rewrite <- Qle_bool_iff; congruence). destruct H as [H|H]; apply A in H; lra.
Qed.
Example bip_zero_ex : bip_result (mkbip (fun x => x)%Q 0 0 6 5 5 3 {| isz := 1; frsz := 15; sgn := false |}) 5 = None.
Proof. apply bip_zero_refuted. left. reflexivity. Qed.

Print Assumptions bip_indices.
Print Assumptions bip_argument.
Print Assumptions bip_wide_interval_refuted.
Print Assumptions bip_table_error.
Print Assumptions bip_result_error.
Print Assumptions bip_default.
Print Assumptions bip_logged_error.
Print Assumptions bip_one_refuted.
Print Assumptions bip_rounding_refuted.
Print Assumptions bip_modes_refuted.
Print Assumptions bip_emulation_refuted.
Print Assumptions bip_offset_refuted.
Print Assumptions bip_sign_refuted.
Print Assumptions bip_zero_refuted.
