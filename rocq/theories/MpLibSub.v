(* ml_subnormalize_d_dd_i: rounding of a double-double to the digits that
   remain when its result is subnormal. *)
From Coq Require Import ZArith QArith Qabs List Bool Lia Lqa.
From Verif Require Import QUtil RoundSpec RoundProofs FpFormatModel FpFormatSpec FpFormatProofs FpFormatProofs2.
From Verif Require Import SupportModel SupportProps SupportProps2 MpLibModel.
Import ListNotations.
Open Scope Z_scope.

(* the word c is a finite number of value q *)
Definition finite64 (c : Z) (s : bool) (q : Q) : Prop :=
  exists E M v, has_fields ML_Binary64 c s E M /\ ieee_datum ML_Binary64 s E M v /\
    match v with Num x => (q == x)%Q | PZero | MZero => (q == 0)%Q | _ => False end.

Definition sbit (s : bool) : Z := if s then 2 ^ 63 else 0.
Lemma bind_Some : forall A B (x : A) (f : A -> option B), bind (Some x) f = f x. Proof. reflexivity. Qed.
Lemma shl1_ok : forall n, 0 <= n <= 30 -> int_shl1 n = Some (2 ^ n).
Proof.
  intros n H. unfold int_shl1. rewrite (proj2 (Z.leb_le 0 n)), (proj2 (Z.leb_le n 30)) by lia. cbn [andb]. rewrite Z.shiftl_1_l. reflexivity.
Qed.
Lemma trunc_shift : forall x d, 0 <= d <= 63 -> 0 <= x < 2 ^ 64 ->
  (do r <- u64_shr x d; u64_shl r d) = Some (x - x mod 2 ^ d).
Proof.
  intros x d Hd Hx. unfold u64_shr, u64_shl. rewrite (proj2 (Z.leb_le 0 d)), (proj2 (Z.leb_le d 63)) by lia. cbn [andb bind].
  f_equal. unfold u64. rewrite Z.shiftl_mul_pow2, Z.shiftr_div_pow2 by lia. pose proof (pow2_pos d ltac:(lia)) as P.
  pose proof (Z.div_mod x (2 ^ d) ltac:(lia)). pose proof (Z.mod_pos_bound x (2 ^ d) P).
  set (q := x / 2 ^ d) in *. set (r := x mod 2 ^ d) in *. assert (Q : q * 2 ^ d = x - r) by lia.
  assert (0 <= q) by (apply Z.div_pos; lia). rewrite Q. rewrite Z.mod_small; nia.
Qed.

Section Sub.
Variables (c : Z) (s : bool) (E M d : Z) (t : bool) (E' M' k : Z).
Hypothesis HF : has_fields ML_Binary64 c s E M.
Hypothesis HD : has_fields ML_Binary64 d t E' M'.
Notation dl := (1 - E - k).
Notation N := (E * 2 ^ 52 + M).

Lemma sub_fields : c = sbit s + N /\ 0 <= E < 2048 /\ 0 <= M < 2 ^ 52.
Proof.
  destruct HF as (Hc & HE & HM). cbn [esz fsz ML_Binary64] in *. change (2 ^ 11) with 2048 in HE. split; [|auto].
  unfold sbit. change (11 + 52) with 63 in Hc. lia.
Qed.

Lemma sub_mod : forall n, 0 <= n <= 52 -> c mod 2 ^ n = N mod 2 ^ n.
Proof.
  intros n Hn. destruct sub_fields as [-> _]. unfold sbit. destruct s; [|reflexivity].
  replace (2 ^ 63) with (2 ^ (63 - n) * 2 ^ n) by (rewrite <- Z.pow_add_r by lia; f_equal; lia).
  rewrite Z.add_comm, Z_mod_plus_full. reflexivity.
Qed.
Lemma sub_sticky : 2 <= dl <= 30 -> exists y, u64_shl c (64 - (dl - 1)) = Some y /\ (y =? 0) = (N mod 2 ^ (dl - 1) =? 0).
Proof.
  intros H. unfold u64_shl. rewrite (proj2 (Z.leb_le 0 _)), (proj2 (Z.leb_le _ 63)) by lia. cbn [andb].
  eexists. split; [reflexivity|]. unfold u64. rewrite Z.shiftl_mul_pow2 by lia.
  replace (2 ^ 64) with (2 ^ (dl - 1) * 2 ^ (64 - (dl - 1))) by (rewrite <- Z.pow_add_r by lia; f_equal; lia).
  pose proof (pow2_pos (64 - (dl - 1)) ltac:(lia)) as P. pose proof (pow2_pos (dl - 1) ltac:(lia)) as P'.
  rewrite Z.mul_mod_distr_r by lia. rewrite sub_mod by lia.
  pose proof (Z.mod_pos_bound N (2 ^ (dl - 1)) P'). destruct (Z.eqb_spec (N mod 2 ^ (dl - 1)) 0) as [Z|Z].
  - rewrite Z. reflexivity.
  - apply Z.eqb_neq. nia.
Qed.
Lemma sub_parity : 2 <= dl <= 30 -> (Z.land c (2 ^ dl) =? 0) = negb (Z.testbit N dl).
Proof.
  intros H. pose proof (land_bit c dl ltac:(lia)) as L. unfold c_true in L.
  assert (B : Z.testbit c dl = Z.testbit N dl).
  { rewrite <- (Z.mod_pow2_bits_low c 52) by lia. rewrite <- (Z.mod_pow2_bits_low N 52) by lia. rewrite sub_mod by lia. reflexivity. }
  rewrite <- B, <- L, negb_involutive. reflexivity.
Qed.
Lemma sub_lo_sign : (Z.shiftr (Z.lxor c d) 63 =? 0) = negb (xorb s t).
Proof.
  pose proof (c_sign ML_Binary64 ok64 c s E M HF) as S1. pose proof (c_sign ML_Binary64 ok64 d t E' M' HD) as S2.
  cbn [esz fsz ML_Binary64] in *. change (52 + 11) with 63 in *.
  rewrite Z.shiftr_lxor, !Z.shiftr_div_pow2 by lia. rewrite S1, S2. destruct s, t; reflexivity.
Qed.
Lemma sub_lo_zero : (Z.land d 0x7fffffffffffffff =? 0) = ((E' =? 0) && (M' =? 0)).
Proof.
  pose proof (w_abs ML_Binary64 ok64 d t E' M' HD) as W. cbn [esz fsz ML_Binary64] in W. change (2 ^ (11 + 52) - 1) with 0x7fffffffffffffff in W.
  rewrite W. destruct HD as (_ & H1 & H2). cbn [esz fsz ML_Binary64] in *. change (2 ^ 52) with 4503599627370496 in *.
  destruct (Z.eqb_spec E' 0); destruct (Z.eqb_spec M' 0); cbn [andb]; [apply Z.eqb_eq|apply Z.eqb_neq|apply Z.eqb_neq|apply Z.eqb_neq]; lia.
Qed.

Definition sub_trunc : bool :=
  ((N mod 2 ^ (dl - 1) =? 0) && negb (Z.testbit N dl) && ((E' =? 0) && (M' =? 0))) || ((N mod 2 ^ (dl - 1) =? 0) && xorb s t).
Definition sub_N : Z := if sub_trunc then N else N + 2 ^ (dl - 1).

Lemma sub_word : 2 <= dl <= 30 -> E < 2047 -> ml_subnormalize_d_dd_i c d k = Some (sbit s + (sub_N - sub_N mod 2 ^ dl)).
Proof.
  intros H HE. unfold ml_subnormalize_d_dd_i. rewrite (proj1 (proj2 (c_exp_extraction c s E M) HF)).
  replace (-1022 - (E - 1023 + k)) with dl by lia. rewrite !shl1_ok by lia. rewrite !bind_Some.
  destruct (sub_sticky H) as (y & -> & Y). rewrite !bind_Some. rewrite Y, sub_parity, sub_lo_sign, sub_lo_zero, negb_involutive by auto.
  fold sub_trunc. destruct sub_fields as (Hc & HE0 & HM). pose proof (pow2_pos (dl - 1) ltac:(lia)) as P.
  assert (B : 2 ^ (dl - 1) < 2 ^ 52) by (apply Z.pow_lt_mono_r; lia).
  assert (BN : 0 <= N /\ N + 2 ^ (dl - 1) < 2 ^ 63) by (change (2 ^ 63) with (2048 * 2 ^ 52); nia).
  assert (SB : 0 <= sbit s <= 2 ^ 63) by (unfold sbit; destruct s; lia).
  assert (W : 2 ^ 64 = 2 ^ 63 + 2 ^ 63) by reflexivity.
  assert (U : (if sub_trunc then c else u64 (c + 2 ^ (dl - 1))) = sbit s + sub_N).
  { unfold sub_N. destruct sub_trunc; [auto|]. unfold u64. rewrite Z.mod_small by lia. lia. }
  rewrite U. rewrite trunc_shift; [| |unfold sub_N; destruct sub_trunc; lia]; [|lia].
  f_equal. replace ((sbit s + sub_N) mod 2 ^ dl) with (sub_N mod 2 ^ dl); [lia|].
  unfold sbit. destruct s; [|reflexivity].
  replace (2 ^ 63) with (2 ^ (63 - dl) * 2 ^ dl) by (rewrite <- Z.pow_add_r by lia; f_equal; lia).
  rewrite (Z.add_comm (_ * _)), Z_mod_plus_full. reflexivity.
Qed.
(* outside of this range a shift is undefined *)
Lemma sub_undef : dl < 2 \/ 30 < dl -> ml_subnormalize_d_dd_i c d k = None.
Proof.
  intros H. unfold ml_subnormalize_d_dd_i. rewrite (proj1 (proj2 (c_exp_extraction c s E M) HF)).
  replace (-1022 - (E - 1023 + k)) with dl by lia.
  assert (U : u64_shl c (64 - (dl - 1)) = None \/ int_shl1 dl = None).
  { unfold u64_shl, int_shl1. destruct H as [H|H].
    - left. rewrite (proj2 (Z.leb_gt _ 63)) by lia. rewrite andb_false_r. reflexivity.
    - right. rewrite (proj2 (Z.leb_gt _ 30)) by lia. rewrite andb_false_r. reflexivity. }
  destruct (int_shl1 (dl - 1)); [|reflexivity]. cbn [bind]. destruct U as [-> | ->]; [reflexivity|].
  destruct (u64_shl c (64 - (dl - 1))); reflexivity.
Qed.
End Sub.

(* words between two consecutive powers of two *)
Lemma word_value : forall (s : bool) E K, 0 < E < 2046 -> E * 2 ^ 52 <= K <= (E + 1) * 2 ^ 52 ->
  finite64 (sbit s + K) s ((if s then -1 else 1) * inject_Z (2 ^ 52 + K - E * 2 ^ 52) * p2 (E - 1075)).
Proof.
  intros s E K HE HK. destruct (Z.eq_dec K ((E + 1) * 2 ^ 52)) as [-> |NK].
  - exists (E + 1), 0. eexists (Num _). split; [|split; [apply d_normal; [change (2 ^ esz ML_Binary64) with 2048; lia|reflexivity]|]].
    + split; [|split; [change (2 ^ esz ML_Binary64) with 2048; lia|cbn; lia]]. unfold sbit. cbn [esz fsz ML_Binary64]. change (11 + 52) with 63. lia.
    + change (ieee_bias ML_Binary64) with 1023. replace (2 ^ 52 + (E + 1) * 2 ^ 52 - E * 2 ^ 52) with (2 ^ 53) by lia.
      rewrite <- (p2_Z 53) by lia. rewrite <- Qmult_assoc, <- p2_plus. replace (53 + (E - 1075)) with (E + 1 - 1023) by lia.
      change (inject_Z 0) with 0%Q. ring.
  - exists E, (K - E * 2 ^ 52). eexists (Num _). split; [|split; [apply d_normal; [change (2 ^ esz ML_Binary64) with 2048; lia|reflexivity]|]].
    + split; [|split; [change (2 ^ esz ML_Binary64) with 2048; lia|change (2 ^ fsz ML_Binary64) with (2 ^ 52); lia]]. unfold sbit. cbn [esz fsz ML_Binary64]. change (11 + 52) with 63. lia.
    + change (ieee_bias ML_Binary64) with 1023. change (fsz ML_Binary64) with 52.
      replace (2 ^ 52 + K - E * 2 ^ 52) with (2 ^ 52 + (K - E * 2 ^ 52)) by lia. rewrite inject_Z_plus, <- (p2_Z 52) by lia.
      replace (E - 1075) with (-52 + (E - 1023)) by lia. rewrite p2_plus. pose proof (p2_opp 52) as P.
      transitivity ((if s then -1 else 1) * p2 (E - 1023) * (p2 (- 52) * p2 52 + inject_Z (K - E * 2 ^ 52) * p2 (- 52)))%Q; [ring|].
      rewrite P. reflexivity.
Qed.
(* rounding an integer a plus a correction of at most one half *)
Lemma round_core : forall a n (lam : Q) (zero opp : bool),
  let st := a mod 2 ^ (n - 1) =? 0 in
  let tr := (st && negb (Z.testbit a n) && zero) || (st && opp) in
  let b := if tr then a else a + 2 ^ (n - 1) in
  let r := b - b mod 2 ^ n in
  2 <= n -> (Qabs lam <= 1 # 2)%Q -> (zero = true <-> (lam == 0)%Q) ->
  (opp = true -> (lam <= 0)%Q) -> (opp = false -> (0 <= lam)%Q) ->
  (Qabs (inject_Z r - (inject_Z a + lam)) <= p2 (n - 1))%Q /\
  ((Qabs (inject_Z r - (inject_Z a + lam)) == p2 (n - 1))%Q -> zero = true /\ a mod 2 ^ n = 2 ^ (n - 1) /\
     Z.odd (r / 2 ^ n) = Z.testbit a n && opp).
Proof.
  intros a n lam zero opp st tr b r Hn HL HZ HO1 HO2.
  set (h := 2 ^ (n - 1)) in *. assert (Ph : 2 <= h) by (unfold h; replace 2 with (2 ^ 1) by reflexivity; apply Z.pow_le_mono_r; lia).
  assert (E2 : 2 ^ n = 2 * h) by (unfold h; rewrite <- Z.pow_succ_r by lia; f_equal; lia).
  assert (PQ : (p2 (n - 1) == inject_Z h)%Q) by (unfold h; rewrite <- p2_Z by lia; reflexivity).
  set (q := a / 2 ^ n). set (m := a mod 2 ^ n).
  assert (Ea : a = 2 * h * q + m /\ 0 <= m < 2 * h).
  { unfold q, m. pose proof (Z.div_mod a (2 ^ n) ltac:(lia)). pose proof (Z.mod_pos_bound a (2 ^ n) ltac:(lia)). rewrite E2 in *. lia. }
  destruct Ea as [Ea Em].
  assert (ST : st = (m =? 0) || (m =? h)).
  { unfold st. replace (a mod h) with (m mod h).
    - destruct (Z.lt_ge_cases m h).
      + rewrite Z.mod_small by lia. destruct (Z.eqb_spec m h); [lia|]. rewrite orb_false_r. reflexivity.
      + replace m with (m - h + 1 * h) at 1 by lia. rewrite Z_mod_plus_full, Z.mod_small by lia.
        destruct (Z.eqb_spec m 0); [lia|]. cbn [orb]. destruct (Z.eqb_spec m h); [apply Z.eqb_eq|apply Z.eqb_neq]; lia.
    - rewrite Ea. replace (2 * h * q + m) with (m + (2 * q) * h) by ring. rewrite Z_mod_plus_full. reflexivity. }
  assert (TB : Z.testbit a n = Z.odd q) by (rewrite Z.testbit_odd, Z.shiftr_div_pow2 by lia; reflexivity).
  assert (R : r = if tr then 2 * h * q else if m <? h then 2 * h * q else 2 * h * (q + 1)).
  { unfold r, b. rewrite E2. destruct tr.
    - rewrite Ea. replace (2 * h * q + m) with (m + q * (2 * h)) by ring. rewrite Z_mod_plus_full, Z.mod_small by lia. ring.
    - rewrite Ea. destruct (Z.ltb_spec m h).
      + replace (2 * h * q + m + h) with (m + h + q * (2 * h)) by ring. rewrite Z_mod_plus_full, Z.mod_small by lia. ring.
      + replace (2 * h * q + m + h) with (m - h + (q + 1) * (2 * h)) by ring. rewrite Z_mod_plus_full, Z.mod_small by lia. ring. }
  assert (RQ : r / 2 ^ n = if tr then q else if m <? h then q else q + 1).
  { rewrite R, E2. destruct tr; [|destruct (m <? h)]; rewrite Z.mul_comm; apply Z.div_mul; lia. }
  (* the distance is j + lam up to sign, with j an integer *)
  set (j := a - r).
  assert (EJ : (Qabs (inject_Z r - (inject_Z a + lam)) == Qabs (inject_Z j + lam))%Q).
  { rewrite Qabs_Qminus. apply Qabs_wd. unfold j, Z.sub. rewrite inject_Z_plus, inject_Z_opp. ring. }
  apply Qabs_le_iff in HL. destruct HL as [HL1 HL2].
  assert (PhQ : (2 <= inject_Z h)%Q) by (change 2%Q with (inject_Z 2); rewrite <- Zle_Qle; auto).
  assert (IN : forall z, z <= h - 1 -> (inject_Z z <= inject_Z h - 1)%Q).
  { intros z Hz. rewrite Zle_Qle in Hz. unfold Z.sub in Hz. rewrite inject_Z_plus in Hz. change (inject_Z (- (1))) with (-1)%Q in Hz. lra. }
  assert (IN2 : forall z, - (h - 1) <= z -> (- (inject_Z h - 1) <= inject_Z z)%Q).
  { intros z Hz. rewrite Zle_Qle in Hz. unfold Z.sub in Hz. rewrite inject_Z_opp, inject_Z_plus in Hz. change (inject_Z (- (1))) with (-1)%Q in Hz. lra. }
  assert (STRICT : - (h - 1) <= j <= h - 1 -> (Qabs (inject_Z j + lam) < p2 (n - 1))%Q).
  { intros [J1 J2]. apply IN2 in J1. apply IN in J2. rewrite PQ. apply Qabs_case; intros; lra. }
  assert (JR : j = a - r) by reflexivity. rewrite R in JR. clearbody j. rewrite EJ. rewrite RQ.
  destruct tr eqn:T.
  - assert (SM : m = 0 \/ m = h).
    { unfold tr in T. apply orb_prop in T. rewrite ST in T.
      assert ((m =? 0) || (m =? h) = true) as O by (destruct T as [T|T]; apply andb_prop in T; destruct T as [T _]; [apply andb_prop in T; tauto|auto]).
      apply orb_prop in O. destruct O as [O|O]; apply Z.eqb_eq in O; auto. }
    destruct SM as [SM|SM]; [specialize (STRICT ltac:(lia)); split; [lra|intros K; rewrite K in STRICT; lra]|].
    assert (LZ : (lam <= 0)%Q).
    { unfold tr in T. apply orb_prop in T. destruct T as [T|T]; apply andb_prop in T; destruct T as [T1 T2]; [|auto].
      apply HZ in T2. lra. }
    replace j with h by lia. rewrite PQ. split; [apply Qabs_case; intros; lra|].
    intros K. rewrite Qabs_pos in K by lra. assert (L0 : (lam == 0)%Q) by lra. apply HZ in L0. split; auto. split; [auto|].
    rewrite TB. unfold tr in T. rewrite TB, L0 in T. destruct (Z.odd q); [|reflexivity]. cbn [negb] in T. rewrite andb_false_r in T. cbn [orb andb] in T.
    apply andb_prop in T. destruct T as [_ ->]. reflexivity.
  - destruct (Z.ltb_spec m h) as [L|L].
    + specialize (STRICT ltac:(lia)). split; [lra|intros K; rewrite K in STRICT; lra].
    + destruct (Z.eq_dec m h) as [SM|SM]; [|specialize (STRICT ltac:(lia)); split; [lra|intros K; rewrite K in STRICT; lra]].
      assert (T' := T). unfold tr in T'. rewrite ST, SM, Z.eqb_refl, orb_true_r in T'. cbn [andb] in T'. apply orb_false_elim in T'. destruct T' as [T1 T2].
      specialize (HO2 T2). replace j with (- h) by lia. rewrite inject_Z_opp, PQ. split; [apply Qabs_case; intros; lra|].
      intros K. rewrite Qabs_neg in K by lra. assert (L0 : (lam == 0)%Q) by lra. apply HZ in L0. split; auto. split; [auto|].
      rewrite L0, andb_true_r in T1. apply negb_false_iff in T1. rewrite T1, T2. rewrite TB in T1.
      rewrite Z.odd_add, T1. reflexivity.
Qed.

Lemma num_nonzero : forall F s E M q, ieee_datum F s E M (Num q) -> E = 0 -> M <> 0.
Proof. intros F s E M q D. remember (Num q) as v eqn:V. destruct D; try discriminate V; intros; auto; lia. Qed.
Lemma finite64_sign : forall d t l, finite64 d t l -> exists E' M', has_fields ML_Binary64 d t E' M' /\
  (((E' =? 0) && (M' =? 0)) = true <-> (l == 0)%Q) /\ (0 <= (if t then -1 else 1) * l)%Q.
Proof.
  intros d t l (E' & M' & v & HF & D & V). exists E', M'. split; auto. pose proof HF as (_ & HE & HM).
  assert (CASE : (exists x, v = Num x) \/ (E' = 0 /\ M' = 0 /\ (l == 0)%Q)).
  { destruct D; try contradiction; auto; left; eauto. }
  destruct CASE as [[x ->]|[-> [-> L]]].
  2:{ split; [split; auto|]. rewrite L. destruct t; discriminate. }
  destruct (num_datum_of ML_Binary64 t E' M' x D) as [[H1 H2]|[H1 H2]].
  - pose proof (normal_big ML_Binary64 ok64 d t E' M' HF t x H1 H2) as B.
    assert (0 < min_normal ML_Binary64)%Q by (unfold min_normal; apply p2_pos).
    destruct (frac_bounds ML_Binary64 ok64 d t E' M' HF) as [F1 F2]. pose proof (p2_pos (E' - ieee_bias ML_Binary64)) as PP.
    assert (POS : (0 <= p2 (E' - ieee_bias ML_Binary64) * (1 + inject_Z M' * p2 (- fsz ML_Binary64)))%Q) by (apply Qmult_le_0_compat; lra).
    split.
    + split; intros K; exfalso.
      * apply andb_prop in K. destruct K as [K _]. apply Z.eqb_eq in K. lia.
      * rewrite V in K. rewrite K in B. change (Qabs 0) with 0%Q in B. lra.
    + rewrite V, H2. destruct t; lra.
  - assert (M0 : M' <> 0).
    { exact (num_nonzero ML_Binary64 t E' M' x D H1). }
    destruct (frac_bounds ML_Binary64 ok64 d t E' M' HF) as [F1 F2].
    assert (MP : (0 < inject_Z M')%Q) by (change 0%Q with (inject_Z 0); rewrite <- Zlt_Qlt; lia).
    pose proof (p2_pos (- fsz ML_Binary64)) as P1. pose proof (p2_pos (1 - ieee_bias ML_Binary64)) as P2.
    assert (POS0 : (0 < inject_Z M' * p2 (- fsz ML_Binary64))%Q).
    { setoid_replace 0%Q with (0 * p2 (- fsz ML_Binary64))%Q by ring. apply Qmult_lt_r; auto. }
    assert (POS : (0 < p2 (1 - ieee_bias ML_Binary64) * (inject_Z M' * p2 (- fsz ML_Binary64)))%Q).
    { setoid_replace 0%Q with (0 * (inject_Z M' * p2 (- fsz ML_Binary64)))%Q by ring. apply Qmult_lt_r; auto. }
    split.
    + split; intros K; exfalso.
      * apply andb_prop in K. destruct K as [_ K]. apply Z.eqb_eq in K. lia.
      * rewrite V, H2 in K. destruct t; lra.
    + rewrite V, H2. destruct t; lra.
Qed.

Lemma Qabs_inject : forall z, (Qabs (inject_Z z) == inject_Z (Z.abs z))%Q.
Proof. intros [|p|p]; reflexivity. Qed.
Lemma inject_sub : forall a b, (inject_Z (a - b) == inject_Z a - inject_Z b)%Q.
Proof. intros. unfold Z.sub. rewrite inject_Z_plus, inject_Z_opp. reflexivity. Qed.

Section Final.
Variables (c : Z) (s : bool) (E M d : Z) (t : bool) (k : Z) (h l : Q).
Hypothesis HF : has_fields ML_Binary64 c s E M.
Hypothesis HE : 0 < E < 2046.
Hypothesis HV : ieee_datum ML_Binary64 s E M (Num h).
Hypothesis HD : finite64 d t l.
Hypothesis HL : (Qabs l <= p2 (E - 1076))%Q.
Hypothesis HK : 2 <= 1 - E - k <= 30.
Notation n := (1 - E - k).
Notation N := (E * 2 ^ 52 + M).

Lemma sub_final : exists w r, ml_subnormalize_d_dd_i c d k = Some w /\
  finite64 w s ((if s then -1 else 1) * inject_Z (2 ^ 52 + r * 2 ^ n - E * 2 ^ 52) * p2 (E - 1075)) /\
  let q := ((if s then -1 else 1) * inject_Z (2 ^ 52 + r * 2 ^ n - E * 2 ^ 52) * p2 (E - 1075))%Q in
  (Qabs (q - (h + l)) <= p2 (-1075 - k))%Q /\
  ((Qabs (q - (h + l)) == p2 (-1075 - k))%Q -> (l == 0)%Q /\ M mod 2 ^ n = 2 ^ (n - 1) /\ Z.odd r = Z.testbit M n && xorb s t).
Proof.
  destruct (finite64_sign d t l HD) as (E' & M' & HFd & LZ & LS).
  pose proof (sub_word c s E M d t E' M' k HF HFd HK ltac:(lia)) as W.
  destruct (sub_fields c s E M HF) as (Hc & _ & HM).
  set (sn := sub_N s E M t E' M' k) in *. set (R := sn - sn mod 2 ^ n) in *.
  pose proof (pow2_pos n ltac:(lia)) as Pn.
  assert (E52 : 2 ^ 52 = 2 ^ (52 - n) * 2 ^ n) by (rewrite <- Z.pow_add_r by lia; f_equal; lia).
  assert (ER : R = sn / 2 ^ n * 2 ^ n) by (unfold R; pose proof (Z.div_mod sn (2 ^ n) ltac:(lia)); lia).
  assert (SN : N <= sn <= N + 2 ^ (n - 1)).
  { unfold sn, sub_N. pose proof (pow2_pos (n - 1) ltac:(lia)). destruct (sub_trunc s E M t E' M' k); lia. }
  assert (E2 : 2 ^ n = 2 * 2 ^ (n - 1)) by (rewrite <- Z.pow_succ_r by lia; f_equal; lia).
  assert (BR : E * 2 ^ 52 <= R <= (E + 1) * 2 ^ 52).
  { rewrite ER, E52, !Z.mul_assoc. split; apply Z.mul_le_mono_nonneg_r; try lia.
    - apply Z.div_le_lower_bound; [lia|]. rewrite Z.mul_comm, <- Z.mul_assoc, <- E52. lia.
    - assert (sn / 2 ^ n < (E + 1) * 2 ^ (52 - n) + 1); [|lia]. apply Z.div_lt_upper_bound; [lia|].
      rewrite Z.mul_comm, Z.mul_add_distr_r, <- Z.mul_assoc, <- E52. lia. }
  exists (sbit s + R), (sn / 2 ^ n). split; auto. rewrite <- ER. split; [apply word_value; auto|].
  intros q.
  (* the value of the high part *)
  assert (Hh : (h == (if s then -1 else 1) * inject_Z (2 ^ 52 + N - E * 2 ^ 52) * p2 (E - 1075))%Q).
  { destruct (num_datum_of ML_Binary64 s E M h HV) as [[_ H2]|[H1 _]]; [|lia]. rewrite H2.
    change (ieee_bias ML_Binary64) with 1023. change (fsz ML_Binary64) with 52.
    replace (2 ^ 52 + N - E * 2 ^ 52) with (2 ^ 52 + M) by lia. rewrite inject_Z_plus, <- (p2_Z 52) by lia.
    replace (E - 1075) with (-52 + (E - 1023)) by lia. rewrite p2_plus. pose proof (p2_opp 52) as P.
    transitivity ((if s then -1 else 1) * p2 (E - 1023) * (p2 (- 52) * p2 52 + inject_Z M * p2 (- 52)))%Q; [rewrite P; reflexivity|ring]. }
  set (lam := ((if s then -1 else 1) * l * p2 (- (E - 1075)))%Q).
  pose proof (p2_opp (E - 1075)) as PO. pose proof (p2_pos (- (E - 1075))) as PP. pose proof (p2_pos (E - 1075)) as PE.
  assert (Hl : (l == (if s then -1 else 1) * lam * p2 (E - 1075))%Q).
  { unfold lam. transitivity (l * (p2 (- (E - 1075)) * p2 (E - 1075)))%Q; [rewrite PO; ring|destruct s; ring]. }
  assert (AL : (Qabs lam <= 1 # 2)%Q).
  { unfold lam. rewrite Qabs_mul_pos by auto.
    assert (A : (Qabs ((if s then -1 else 1) * l) == Qabs l)%Q).
    { destruct s; [setoid_replace (-1 * l)%Q with (- l)%Q by ring; apply Qabs_opp|apply Qabs_wd; ring]. }
    rewrite A. apply Qle_trans with (p2 (E - 1076) * p2 (- (E - 1075)))%Q; [apply Qmult_le_compat_r; lra|].
    rewrite <- p2_plus. replace (E - 1076 + - (E - 1075)) with (-1) by lia. discriminate. }
  assert (LZ' : ((E' =? 0) && (M' =? 0)) = true <-> (lam == 0)%Q).
  { rewrite LZ. split; intros K.
    - unfold lam. rewrite K. destruct s; ring.
    - rewrite Hl, K. destruct s; ring. }
  assert (LP : forall x, (0 <= x)%Q -> (0 <= x * p2 (- (E - 1075)))%Q) by (intros x Hx; apply Qmult_le_0_compat; lra).
  assert (L1 : xorb s t = true -> (lam <= 0)%Q).
  { intros X. pose proof (LP _ LS) as G. unfold lam. destruct s, t; try discriminate X; lra. }
  assert (L2 : xorb s t = false -> (0 <= lam)%Q).
  { intros X. pose proof (LP _ LS) as G. unfold lam. destruct s, t; try discriminate X; lra. }
  pose proof (round_core N n lam ((E' =? 0) && (M' =? 0)) (xorb s t) ltac:(lia) AL LZ' L1 L2) as RC. cbv zeta in RC.
  fold (sub_trunc s E M t E' M' k) in RC. change (if sub_trunc s E M t E' M' k then N else N + 2 ^ (n - 1)) with sn in RC. fold R in RC.
  assert (DQ : (Qabs (q - (h + l)) == Qabs (inject_Z R - (inject_Z N + lam)) * p2 (E - 1075))%Q).
  { rewrite <- Qabs_mul_pos by auto. unfold q. rewrite Hh, Hl.
    assert (IR : (inject_Z (2 ^ 52 + R - E * 2 ^ 52) == inject_Z R + inject_Z (2 ^ 52 - E * 2 ^ 52))%Q) by (rewrite <- inject_Z_plus; f_equiv; lia).
    assert (INN : (inject_Z (2 ^ 52 + N - E * 2 ^ 52) == inject_Z N + inject_Z (2 ^ 52 - E * 2 ^ 52))%Q) by (rewrite <- inject_Z_plus; f_equiv; lia).
    rewrite IR, INN. destruct s.
    - rewrite <- (Qabs_opp (_ * p2 (E - 1075))). apply Qabs_wd. ring.
    - apply Qabs_wd. ring. }
  assert (PK : (p2 (-1075 - k) == p2 (n - 1) * p2 (E - 1075))%Q) by (rewrite <- p2_plus; replace (n - 1 + (E - 1075)) with (-1075 - k) by lia; reflexivity).
  rewrite DQ, PK. destruct RC as [RC1 RC2]. split; [apply Qmult_le_compat_r; lra|].
  intros K. apply Qmult_inj_r in K; [|apply p2_nz]. specialize (RC2 K). destruct RC2 as (Z0 & Z1 & Z2).
  split; [apply LZ; auto|].
  assert (MM : N mod 2 ^ n = M mod 2 ^ n).
  { rewrite E52, Z.mul_assoc, Z.add_comm, Z_mod_plus_full. reflexivity. }
  assert (MB : Z.testbit N n = Z.testbit M n).
  { rewrite <- (Z.mod_pow2_bits_low N 52), <- (Z.mod_pow2_bits_low M 52) by lia. f_equal. rewrite Z.add_comm, Z_mod_plus_full. reflexivity. }
  rewrite <- MM, <- MB. split; auto. rewrite <- Z2. f_equal. rewrite ER. rewrite Z.div_mul by lia. reflexivity.
Qed.
End Final.

(* The result times 2^k is the subnormal number nearest to (hi + lo) 2^k; an
   exact tie goes to the even one when the two words have the same sign bit. *)
Theorem c_subnormalize_nearest_partial : forall c s E M d t k h l,
  has_fields ML_Binary64 c s E M -> 0 < E < 2046 -> ieee_datum ML_Binary64 s E M (Num h) -> finite64 d t l ->
  (Qabs l <= p2 (E - 1076))%Q -> 2 <= 1 - E - k <= 30 ->
  exists w q, ml_subnormalize_d_dd_i c d k = Some w /\ finite64 w s q /\ mult (-1074 - k) q /\
    (Qabs (q - (h + l)) <= p2 (-1075 - k))%Q /\
    ((Qabs (q - (h + l)) == p2 (-1075 - k))%Q -> s = t -> mult (-1073 - k) q).
Proof.
  intros c s E M d t k h l HF HE HV HD HL HK.
  destruct (sub_final c s E M d t k h l HF HE HV HD HL HK) as (w & r & W1 & W2 & W3).
  exists w. eexists. split; [exact W1|]. split; [exact W2|]. destruct W3 as [W3 W4].
  assert (E52 : 2 ^ 52 = 2 ^ (52 - (1 - E - k)) * 2 ^ (1 - E - k)) by (rewrite <- Z.pow_add_r by lia; f_equal; lia).
  set (n := 1 - E - k) in *. set (j := (1 - E) * 2 ^ (52 - n)).
  assert (EJ : 2 ^ 52 + r * 2 ^ n - E * 2 ^ 52 = (j + r) * 2 ^ n) by (unfold j; rewrite E52; ring).
  rewrite EJ in *.
  assert (EV : forall z, ((if s then -1 else 1) * inject_Z (z * 2 ^ n) * p2 (E - 1075) == inject_Z (if s then - z else z) * p2 (-1074 - k))%Q).
  { intros z. rewrite inject_Z_mult, <- (p2_Z n) by lia. replace (-1074 - k) with (n + (E - 1075)) by (unfold n; lia). rewrite p2_plus.
    destruct s; [rewrite inject_Z_opp|]; ring. }
  split; [exists (if s then - (j + r) else j + r); apply EV|]. split; auto.
  intros K <-. specialize (W4 K). destruct W4 as (_ & _ & W4). rewrite xorb_nilpotent, andb_false_r in W4.
  assert (EVr : Z.even (j + r) = true).
  { rewrite Z.even_add, <- (Z.negb_odd r), W4. unfold j. rewrite Z.even_mul, (Z.even_pow 2) by lia. rewrite orb_true_r. reflexivity. }
  apply Z.even_spec in EVr. destruct EVr as [y Y]. rewrite Y in *. exists (if s then - y else y). rewrite EV.
  replace (-1073 - k) with (-1074 - k + 1) by lia. rewrite p2_succ. replace (if s then - (2 * y) else 2 * y) with (2 * (if s then - y else y)) by (destruct s; lia).
  rewrite inject_Z_mult. change (inject_Z 2) with 2%Q. ring.
Qed.
(* a tie goes to the odd neighbour when the zero low word has the other sign:
   in particular for every negative tie with lo = +0 *)
Theorem c_subnormalize_tie_refuted : forall c s E M d k h,
  has_fields ML_Binary64 c s E M -> 0 < E < 2046 -> ieee_datum ML_Binary64 s E M (Num h) -> finite64 d (negb s) 0 ->
  2 <= 1 - E - k <= 30 -> M mod 2 ^ (2 - E - k) = 3 * 2 ^ (- E - k) ->
  exists w q, ml_subnormalize_d_dd_i c d k = Some w /\ finite64 w s q /\
    (Qabs (q - h) == p2 (-1075 - k))%Q /\ ~ mult (-1073 - k) q.
Proof.
  intros c s E M d k h HF HE HV HD HK HM.
  assert (HL : (Qabs 0 <= p2 (E - 1076))%Q) by (pose proof (p2_pos (E - 1076)); change (Qabs 0) with 0%Q; lra).
  destruct (sub_final c s E M d (negb s) k h 0 HF HE HV HD HL HK) as (w & r & W1 & W2 & W3).
  exists w. eexists. split; [exact W1|]. split; [exact W2|]. destruct W3 as [W3 W4]. set (n := 1 - E - k) in *.
  replace (2 - E - k) with (n + 1) in HM by (unfold n; lia). replace (- E - k) with (n - 1) in HM by (unfold n; lia).
  assert (E2 : 2 ^ n = 2 * 2 ^ (n - 1)) by (rewrite <- Z.pow_succ_r by lia; f_equal; lia).
  assert (E4 : 2 ^ (n + 1) = 4 * 2 ^ (n - 1)) by (rewrite (Z.pow_add_r 2 n 1), E2 by lia; lia).
  pose proof (pow2_pos (n - 1) ltac:(lia)) as Pn.
  assert (PK : (p2 (-1075 - k) == inject_Z (2 ^ (n - 1)) * p2 (E - 1075))%Q).
  { rewrite <- p2_Z by lia. rewrite <- p2_plus. replace (n - 1 + (E - 1075)) with (-1075 - k) by (unfold n; lia). reflexivity. }
  set (hh := 2 ^ (n - 1)) in *.
  set (Y := M / 2 ^ (n + 1)). assert (EM : M = 4 * hh * Y + 3 * hh) by (unfold Y; pose proof (Z.div_mod M (2 ^ (n + 1)) ltac:(lia)); lia).
  assert (E52 : 2 ^ 52 = 2 ^ (52 - n) * 2 ^ n) by (rewrite <- Z.pow_add_r by lia; f_equal; lia).
  set (j := (1 - E) * 2 ^ (52 - n)) in *.
  assert (EJ : 2 ^ 52 + r * 2 ^ n - E * 2 ^ 52 = (j + r) * 2 ^ n) by (unfold j; rewrite E52; ring).
  set (jj := 2 ^ (52 - n)) in *.
  assert (Hh : (h == (if s then -1 else 1) * inject_Z (2 ^ 52 + M) * p2 (E - 1075))%Q).
  { destruct (num_datum_of ML_Binary64 s E M h HV) as [[_ H2]|[H1 _]]; [|lia]. rewrite H2.
    change (ieee_bias ML_Binary64) with 1023. change (fsz ML_Binary64) with 52.
    rewrite inject_Z_plus, <- (p2_Z 52) by lia.
    replace (E - 1075) with (-52 + (E - 1023)) by lia. rewrite p2_plus. pose proof (p2_opp 52) as P.
    transitivity ((if s then -1 else 1) * p2 (E - 1023) * (p2 (- 52) * p2 52 + inject_Z M * p2 (- 52)))%Q; [rewrite P; reflexivity|ring]. }
  rewrite EJ in *. set (q := ((if s then -1 else 1) * inject_Z ((j + r) * 2 ^ n) * p2 (E - 1075))%Q) in *.
  pose proof (p2_pos (E - 1075)) as PE.
  assert (DQ : (Qabs (q - h) == inject_Z (Z.abs ((j + r) * 2 ^ n - (2 ^ 52 + M))) * p2 (E - 1075))%Q).
  { rewrite <- Qabs_inject, <- Qabs_mul_pos by auto. unfold q. rewrite Hh, inject_sub. destruct s.
    - rewrite <- (Qabs_opp (_ * p2 (E - 1075))). apply Qabs_wd. ring.
    - apply Qabs_wd. ring. }
  assert (D0 : (Qabs (q - (h + 0)) == Qabs (q - h))%Q) by (apply Qabs_wd; ring).
  rewrite D0 in W3, W4. rewrite DQ, PK in W3. apply Qmult_lt_0_le_reg_r in W3; auto. rewrite <- Zle_Qle in W3.
  set (v := j + r - (jj + 2 * Y + 1)).
  assert (EV : (j + r) * 2 ^ n - (2 ^ 52 + M) = hh * (2 * v - 1)).
  { unfold v. rewrite E52, EM, E2. fold jj. ring. }
  assert (EX : Z.abs ((j + r) * 2 ^ n - (2 ^ 52 + M)) = hh).
  { rewrite EV in *. rewrite Z.abs_mul, (Z.abs_eq hh) in * by lia.
    assert (Z.abs (2 * v - 1) <= 1) by (apply Z.mul_le_mono_pos_l with hh; lia). replace (Z.abs (2 * v - 1)) with 1 by lia. lia. }
  assert (TIE : (Qabs (q - h) == p2 (-1075 - k))%Q) by (rewrite DQ, EX, PK; reflexivity).
  split; auto. specialize (W4 TIE). destruct W4 as (_ & _ & W4).
  assert (TB : Z.testbit M n = true).
  { rewrite Z.testbit_true by lia. replace M with (hh + (2 * Y + 1) * 2 ^ n) by (rewrite EM, E2; ring).
    rewrite Z.div_add by lia. rewrite (Z.div_small hh) by lia. rewrite Z.add_0_l.
    rewrite Z.add_comm, Z.mul_comm, Z_mod_plus_full. reflexivity. }
  rewrite TB in W4. assert (OR : Z.odd r = true) by (rewrite W4; destruct s; reflexivity).
  intros [y HY].
  assert (QY : (inject_Z (if s then - (j + r) else j + r) == inject_Z (2 * y))%Q).
  { apply (Qmult_inj_r _ _ (p2 (-1074 - k))); [apply p2_nz|]. rewrite (inject_Z_mult 2). change (inject_Z 2) with 2%Q.
    replace (-1073 - k) with (-1074 - k + 1) in HY by lia. rewrite p2_succ in HY.
    transitivity q; [|rewrite HY; ring]. unfold q. rewrite inject_Z_mult, <- (p2_Z n) by lia. replace (-1074 - k) with (n + (E - 1075)) by (unfold n; lia). rewrite p2_plus.
    destruct s; [rewrite inject_Z_opp|]; ring. }
  unfold Qeq, inject_Z in QY. cbn [Qnum Qden] in QY. rewrite !Z.mul_1_r in QY.
  assert (OD : Z.odd (j + r) = true).
  { rewrite Z.odd_add, OR. unfold j, jj. rewrite Z.odd_mul, (Z.odd_pow 2 (52 - n)) by lia. rewrite andb_false_r. reflexivity. }
  apply Z.odd_spec in OD. destruct OD as [z OD]. destruct s; lia.
Qed.
(* delta outside of 2..30: a shift of the C code is undefined *)
Theorem c_subnormalize_range_refuted : forall c s E M d k, has_fields ML_Binary64 c s E M -> 
  1 - E - k < 2 \/ 30 < 1 - E - k -> ml_subnormalize_d_dd_i c d k = None.
Proof. intros c s E M d k HF H. exact (sub_undef c s E M d k HF H). Qed.

Example c_subnormalize_example :
  (* 1 + 3 * 2^-49 kept to 2^-48: +0 gives the even neighbour, -0 the odd one *)
  ml_subnormalize_d_dd_i 0x3ff0000000000018 0 (-1026) = Some 0x3ff0000000000020 /\
  ml_subnormalize_d_dd_i 0x3ff0000000000018 0x8000000000000000 (-1026) = Some 0x3ff0000000000010 /\
  ml_subnormalize_d_dd_i 0xbff0000000000018 0 (-1026) = Some 0xbff0000000000010 /\
  (* a low part decides: lo = 2^-60, and -2^-60 *)
  ml_subnormalize_d_dd_i 0x3ff0000000000008 0x3c30000000000000 (-1026) = Some 0x3ff0000000000010 /\
  ml_subnormalize_d_dd_i 0x3ff0000000000018 0xbc30000000000000 (-1026) = Some 0x3ff0000000000010 /\
  ml_subnormalize_d_dd_i 0x3ff0000000000018 0 (-1024) = Some 0x3ff0000000000018 /\
  ml_subnormalize_d_dd_i 0x3ff0000000000018 0 (-1023) = None.
Proof. vm_compute. repeat split; reflexivity. Qed.
Example c_subnormalize_hypotheses :
  has_fields ML_Binary64 0x3ff0000000000018 false 1023 24 /\
  ieee_datum ML_Binary64 false 1023 24 (Num (1 + 24 * p2 (-52))%Q) /\
  finite64 0x8000000000000000 (negb false) 0 /\ 24 mod 2 ^ (2 - 1023 - -1026) = 3 * 2 ^ (- 1023 - -1026).
Proof.
  split; [|split; [|split]].
  - unfold has_fields. cbn. lia.
  - apply d_normal; [cbn; lia|]. vm_compute. reflexivity.
  - exists 0, 0, MZero. split; [unfold has_fields; cbn; lia|]. split; [constructor|reflexivity].
  - reflexivity.
Qed.

Print Assumptions c_subnormalize_nearest_partial.
Print Assumptions c_subnormalize_tie_refuted.
Print Assumptions c_subnormalize_range_refuted.
