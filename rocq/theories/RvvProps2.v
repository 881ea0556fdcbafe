(* The entries of the RISC-V vector table which the compiler rejects or which compute another
   value. *)
From Coq Require Import ZArith QArith Qabs Qround Bool List String Lia Lqa.
From Verif Require Import QUtil FpFormatModel FpFormatSpec FpFormatProofs PowModel ExpModel Exp2Model CbrtModel LlvmModel LlvmSpec LlvmProofs FixedProps RvvModel RvvSpec RvvProofs RvvProps.
Import ListNotations.
Open Scope string_scope.
Open Scope list_scope.
Open Scope Z_scope.

(* ---- Entries naming an intrinsic that does not exist for their types. *)
Definition rejected (o : rop) (out : kind) (ks : list kind) : bool :=
  let e := out_elt out ks in
  match o with
  | RFma _ => negb (is_fp e)
  | RNeg | RSra | RMin | RMax => is_unsigned e
  | RConv => is_unsigned (first_elt ks)
  | _ => false
  end.
Ltac reject := entries; repeat match goal with e : elt |- _ => destruct e end; try discriminate;
  match goal with H : Some _ = Some _ |- _ => injection H as <- end; operands; reflexivity.
Theorem rvv_rejected_refuted : forall o out ks c vl args,
  rvv_code o out ks = Some c -> rejected o out ks = true -> Forall2 (typed vl) ks args ->
  run_code vl args c = None.
Proof.
  intros o. destruct o; try (intros out ks cc vl args _ R; discriminate R).
  - reject.
  - reject.
  - reject.
  - reject.
  - reject.
  - revert k. intros kk. reject.
Qed.

(* ---- Conversions. *)
Lemma fcvt_range : forall rnd n x, 0 < n -> - 2 ^ (n - 1) <= fcvt rnd n x < 2 ^ (n - 1).
Proof.
  intros rnd n x Hn. pose proof (Z.pow_pos_nonneg 2 (n - 1) ltac:(lia) ltac:(lia)). unfold fcvt, clamp.
  destruct x; lia.
Qed.
(* to integers: the roundings the entries use *)
Definition used (o : rop) : Q -> Z := match o with RConv | RNearest => qrne | _ => qtrunc end.
Definition converting (o : rop) : bool := match o with RConv | RNearest | RFloor | RTrunc => true | _ => false end.
Definition rounding (o : rop) : bool := match o with RNearest | RFloor | RTrunc => true | _ => false end.

Lemma to_int_lanes : forall o e vl l c, converting o = true -> is_fp e = true -> rvv_code o (KV (f2i e)) [KV e] = Some c ->
  Forall (fp_class e) l -> List.length l = vl ->
  exists l', run_code vl [RV e l] c = Some (RV (f2i e) l') /\ List.length l' = vl
    /\ forall i, (i < vl)%nat -> nth i l' (VI 0) = word (f2i e) (fcvt (used o) (esize e) (fp_of (nth i l (VI 0)))).
Proof.
  intros o e vl l c Ho He H Hl Hv.
  exists (map (fun x => word (f2i e) (fcvt (used o) (esize e) (fp_of x))) l).
  split; [|split; [rewrite map_length; exact Hv|intros i Hi; rewrite (nth_map1 _ _ _ _ _ _ (VI 0)) by lia; reflexivity]].
  destruct o; try discriminate Ho; destruct e; try discriminate He; injection H as <-; reflexivity.
Qed.
Lemma to_fp_lanes : forall o e vl l c, rounding o = true -> is_fp e = true -> rvv_code o (KV e) [KV e] = Some c ->
  Forall (fp_class e) l -> List.length l = vl ->
  exists l', run_code vl [RV e l] c = Some (RV e l') /\ List.length l' = vl
    /\ forall i, (i < vl)%nat -> nth i l' (VI 0) = VF (int_to_fp e (fcvt (used o) (esize e) (fp_of (nth i l (VI 0))))).
Proof.
  intros o e vl l c Ho He H Hl Hv.
  exists (map (fun x => VF (int_to_fp e (sread (f2i e) (word (f2i e) (fcvt (used o) (esize e) (fp_of x)))))) l).
  split; [|split; [rewrite map_length; exact Hv|]].
  - transitivity (Some (RV e (map (fun x => VF (int_to_fp e (sread (f2i e) x)))
                              (map (fun x => word (f2i e) (fcvt (used o) (esize e) (fp_of x))) l)))).
    + destruct o; try discriminate Ho; destruct e; try discriminate He; injection H as <-; reflexivity.
    + rewrite map_map. reflexivity.
  - intros i Hi. rewrite (nth_map1 _ _ _ _ _ _ (VI 0)) by lia.
    do 2 f_equal. unfold sread, word. cbn [int_of].
    assert (E : esize (f2i e) = esize e) by (destruct e; try discriminate He; reflexivity). rewrite E.
    rewrite s_read_word; [reflexivity|apply esize_pos|apply fcvt_range; apply esize_pos].
Qed.

Lemma rnd_bound : forall rnd n q, 1 < n -> (Qabs (inject_Z (rnd q) - q) < 1)%Q -> (Qabs q < p2 (n - 1) - 1)%Q ->
  - 2 ^ (n - 1) <= rnd q < 2 ^ (n - 1).
Proof.
  intros rnd n q Hn Hr Hq. rewrite p2_Z in Hq by lia.
  apply Qabs_Qlt_condition in Hr. apply Qabs_Qlt_condition in Hq.
  assert (H1 : (inject_Z (- 2 ^ (n - 1)) < inject_Z (rnd q))%Q) by (rewrite inject_Z_opp; lra).
  assert (H2 : (inject_Z (rnd q) < inject_Z (2 ^ (n - 1)))%Q) by lra.
  rewrite <- Zlt_Qlt in H1. rewrite <- Zlt_Qlt in H2. lia.
Qed.
Lemma qrne_lt1 : forall q, (Qabs (inject_Z (qrne q) - q) < 1)%Q.
Proof. intros q. pose proof (qrne_half q). lra. Qed.
Lemma floor_lt1 : forall q, (Qabs (inject_Z (Qfloor q) - q) < 1)%Q.
Proof.
  intros q. pose proof (Qfloor_le q). pose proof (Qlt_floor q) as H0. rewrite inject_Z_plus in H0. change (inject_Z 1) with 1%Q in H0.
  apply Qabs_Qlt_condition. lra.
Qed.
Lemma word_inj : forall e a b, - 2 ^ (esize e - 1) <= a < 2 ^ (esize e - 1) -> - 2 ^ (esize e - 1) <= b < 2 ^ (esize e - 1) ->
  word e a = word e b -> a = b.
Proof.
  intros e a b Ha Hb H. unfold word in H. injection H as H.
  rewrite <- (s_read_word (esize e) a (esize_pos e) Ha), <- (s_read_word (esize e) b (esize_pos e) Hb), H. reflexivity.
Qed.
Lemma clamp_id : forall n z, - 2 ^ (n - 1) <= z < 2 ^ (n - 1) -> clamp n z = z.
Proof. intros n z H. unfold clamp. lia. Qed.
Lemma to_int_some : forall rnd n q, - 2 ^ (n - 1) <= rnd q < 2 ^ (n - 1) -> to_int rnd n (Num q) = Some (rnd q).
Proof.
  intros rnd n q H. unfold to_int. destruct (Z.leb_spec (- 2 ^ (n - 1)) (rnd q)), (Z.ltb_spec (rnd q) (2 ^ (n - 1))); try lia. reflexivity.
Qed.
Lemma f2i_size : forall e, is_fp e = true -> esize (f2i e) = esize e.
Proof. intros [] H; try discriminate H; reflexivity. Qed.
Lemma esize_1 : forall e, 1 < esize e.
Proof. intros []; reflexivity. Qed.

(* A C conversion of a datum truncates; the entry rounds to the nearest: wrong on every
   datum for which the two differ *)
Theorem rvv_conversion_refuted : forall e vl l i q c, is_fp e = true -> rvv_code RConv (KV (f2i e)) [KV e] = Some c ->
  Forall (fp_class e) l -> List.length l = vl -> (i < vl)%nat -> nth i l (VI 0) = VF (Num q) ->
  (Qabs q < p2 (esize e - 1) - 1)%Q -> qrne q <> qtrunc q ->
  exists l', run_code vl [RV e l] c = Some (RV (f2i e) l')
    /\ to_int qtrunc (esize e) (Num q) = Some (qtrunc q)
    /\ nth i l' (VI 0) = word (f2i e) (qrne q) /\ nth i l' (VI 0) <> word (f2i e) (qtrunc q).
Proof.
  intros e vl l i q c He H Hl Hv Hi En Hq Hd.
  destruct (to_int_lanes RConv e vl l c eq_refl He H Hl Hv) as (l' & E & _ & L). exists l'. split; [exact E|].
  pose proof (rnd_bound qrne (esize e) q (esize_1 e) (qrne_lt1 q) Hq) as B1.
  pose proof (rnd_bound qtrunc (esize e) q (esize_1 e) (qtrunc_abs_lt q) Hq) as B2.
  split; [apply to_int_some; exact B2|].
  assert (V : nth i l' (VI 0) = word (f2i e) (qrne q)).
  { rewrite (L i Hi), En. cbn [fp_of fcvt used]. rewrite clamp_id by exact B1. reflexivity. }
  split; [exact V|]. rewrite V. intros K. apply Hd. apply (word_inj (f2i e)); rewrite ?f2i_size by exact He; assumption.
Qed.

(* The floor to an integer truncates: one too many on every negative datum that is not an
   integer *)
Lemma trunc_neg : forall q, (q < 0)%Q -> ~ (q == inject_Z (Qfloor q))%Q -> qtrunc q = Qfloor q + 1.
Proof.
  intros q Hq Hn. unfold qtrunc. destruct (Qle_bool 0 q) eqn:E; [rewrite Qle_bool_iff in E; lra|].
  unfold Qceiling. pose proof (Qfloor_le q) as F1. pose proof (Qlt_floor q) as F2. rewrite inject_Z_plus in F2. change (inject_Z 1) with 1%Q in F2.
  assert (F : Qfloor (- q) = - (Qfloor q + 1)); [|lia].
  apply floor_unique.
  - rewrite inject_Z_opp, inject_Z_plus. change (inject_Z 1) with 1%Q. lra.
  - replace (- (Qfloor q + 1) + 1) with (- Qfloor q) by lia. rewrite ?inject_Z_plus, inject_Z_opp, ?inject_Z_plus. change (inject_Z 1) with 1%Q.
    assert ((inject_Z (Qfloor q) < q)%Q) by (apply Qle_lteq in F1; destruct F1 as [F1|F1]; [exact F1|elim Hn; symmetry; exact F1]). lra.
Qed.
Theorem rvv_floor_refuted : forall e vl l i q c, is_fp e = true -> rvv_code RFloor (KV (f2i e)) [KV e] = Some c ->
  Forall (fp_class e) l -> List.length l = vl -> (i < vl)%nat -> nth i l (VI 0) = VF (Num q) ->
  (Qabs q < p2 (esize e - 1) - 1)%Q -> (q < 0)%Q -> ~ (q == inject_Z (Qfloor q))%Q ->
  exists l', run_code vl [RV e l] c = Some (RV (f2i e) l')
    /\ to_int Qfloor (esize e) (Num q) = Some (Qfloor q)
    /\ nth i l' (VI 0) = word (f2i e) (Qfloor q + 1) /\ nth i l' (VI 0) <> word (f2i e) (Qfloor q).
Proof.
  intros e vl l i q c He H Hl Hv Hi En Hq Hneg Hd.
  destruct (to_int_lanes RFloor e vl l c eq_refl He H Hl Hv) as (l' & E & _ & L). exists l'. split; [exact E|].
  pose proof (rnd_bound Qfloor (esize e) q (esize_1 e) (floor_lt1 q) Hq) as B1.
  pose proof (rnd_bound qtrunc (esize e) q (esize_1 e) (qtrunc_abs_lt q) Hq) as B2.
  split; [apply to_int_some; exact B1|].
  assert (V : nth i l' (VI 0) = word (f2i e) (Qfloor q + 1)).
  { rewrite (L i Hi), En. cbn [fp_of fcvt used]. rewrite clamp_id by exact B2. rewrite trunc_neg by assumption. reflexivity. }
  split; [exact V|]. rewrite V. rewrite trunc_neg in B2 by assumption.
  intros K. apply word_inj in K; rewrite ?f2i_size by exact He; lia.
Qed.

(* ---- Roundings to an integer in the format, through an integer. *)
Lemma fmt_elt_ok : forall e, fmt_ok (fmt_of_elt e) /\ sollya_ok (fmt_of_elt e).
Proof. intros []; split; try (split; cbn; lia); reflexivity. Qed.
Lemma rounded_representable : forall e q z, representable (fmt_of_elt e) q ->
  (Qabs (inject_Z z - q) < 1)%Q -> (forall k, (q == inject_Z k)%Q -> z = k) -> representable (fmt_of_elt e) (inject_Z z).
Proof.
  intros e q z (m & x & Hm & Hx & Eq) Hz Hi.
  destruct (Z.le_gt_cases 0 x) as [P|N].
  - assert (E : (q == inject_Z (m * 2 ^ x))%Q) by (rewrite Eq, p2_Z, inject_Z_mult by lia; reflexivity).
    rewrite (Hi _ E). exists m, x. split; [exact Hm|]. split; [exact Hx|]. rewrite <- E. exact Eq.
  - exists z, 0. assert (Hf : 0 < fsz (fmt_of_elt e)) by (destruct e; reflexivity).
    assert (B : (Qabs q < p2 (fsz (fmt_of_elt e)))%Q).
    { rewrite Eq, Qabs_Qmult, (Qabs_pos (p2 x)) by (apply Qlt_le_weak, p2_pos).
      apply Qlt_le_trans with (p2 (fsz (fmt_of_elt e) + 1) * p2 x)%Q.
      - apply Qmult_lt_compat_r; [apply p2_pos|]. rewrite p2_Z by lia. change (Qabs (inject_Z m)) with (inject_Z (Z.abs m)). rewrite <- Zlt_Qlt. exact Hm.
      - rewrite <- p2_plus. apply p2_le. lia. }
    assert (L : Z.abs z <= 2 ^ fsz (fmt_of_elt e)).
    { rewrite p2_Z in B by lia. apply Qabs_Qlt_condition in Hz. apply Qabs_Qlt_condition in B.
      assert (H1 : (inject_Z (- 2 ^ fsz (fmt_of_elt e) - 1) < inject_Z z)%Q).
      { unfold Z.sub. rewrite inject_Z_plus, inject_Z_opp. change (inject_Z (-(1))) with (-(1))%Q. lra. }
      assert (H2 : (inject_Z z < inject_Z (2 ^ fsz (fmt_of_elt e) + 1))%Q).
      { rewrite inject_Z_plus. change (inject_Z 1) with 1%Q. lra. }
      rewrite <- Zlt_Qlt in H1. rewrite <- Zlt_Qlt in H2. lia. }
    split; [rewrite Z.pow_add_r by lia; change (2 ^ 1) with 2; pose proof (Z.pow_pos_nonneg 2 (fsz (fmt_of_elt e)) ltac:(lia) ltac:(lia)); lia|].
    split; [destruct e; cbn; lia|]. rewrite p2_0. ring.
Qed.
Lemma int_to_fp_exact : forall e z, representable (fmt_of_elt e) (inject_Z z) -> z <> 0 ->
  exists r, int_to_fp e z = Num r /\ (r == inject_Z z)%Q.
Proof.
  intros e z Hr Hz. destruct (fmt_elt_ok e) as [Ho Hs].
  destruct (round_id (fmt_of_elt e) Ho Hs (inject_Z z) Hr) as (r & E & Er).
  exists r. split; [|exact Er]. unfold int_to_fp. rewrite E. cbn [datum].
  destruct (Qeq_bool r 0) eqn:B; [|reflexivity]. apply Qeq_bool_iff in B. rewrite Er in B.
  exfalso. unfold Qeq in B. cbn [Qnum Qden inject_Z] in B. lia.
Qed.
Lemma used_lt1 : forall o q, (Qabs (inject_Z (used o q) - q) < 1)%Q.
Proof. intros o q. destruct o; cbn [used]; apply qtrunc_abs_lt || apply qrne_lt1. Qed.
Lemma used_int : forall o q k, (q == inject_Z k)%Q -> used o q = k.
Proof. intros o q k H. destruct o; cbn [used]; apply FixedProps.qtrunc_int || apply qrne_int; exact H. Qed.

(* Exact for every datum of the format whose rounding fits the integer, except for the
   negative ones rounded to zero and, for the floor, the negative ones *)
Theorem rvv_round_partial : forall o e vl l i q c, rounding o = true -> is_fp e = true -> rvv_code o (KV e) [KV e] = Some c ->
  Forall (fp_class e) l -> List.length l = vl -> (i < vl)%nat -> nth i l (VI 0) = VF (Num q) ->
  representable (fmt_of_elt e) q -> ~ (q == 0)%Q -> - 2 ^ (esize e - 1) <= used o q < 2 ^ (esize e - 1) ->
  (o = RFloor -> (0 < q)%Q) -> (used o q = 0 -> (0 < q)%Q) ->
  exists l', run_code vl [RV e l] c = Some (RV e l') /\ List.length l' = vl
    /\ means o e e [VF (Num q)] (nth i l' (VI 0)).
Proof.
  intros o e vl l i q c Ho He H Hl Hv Hi En Hr Hz Hb Hf Hs.
  destruct (to_fp_lanes o e vl l c Ho He H Hl Hv) as (l' & E & E2 & L). exists l'. split; [exact E|]. split; [exact E2|].
  rewrite (L i Hi), En. cbn [fp_of fcvt]. rewrite clamp_id by exact Hb.
  assert (U : lane_rounding o q = used o q).
  { destruct o; try discriminate Ho; try reflexivity. cbn [lane_rounding used]. unfold qtrunc.
    rewrite (proj2 (Qle_bool_iff 0 q)); [reflexivity|]. apply Qlt_le_weak. apply Hf. reflexivity. }
  assert (M : exists y, VF (int_to_fp e (used o q)) = VF y /\ same_datum y (f_round (lane_rounding o) (Num q))).
  { eexists. split; [reflexivity|]. unfold f_round. rewrite U. destruct (Z.eqb_spec (used o q) 0) as [Z0|Z0].
    - rewrite Z0. cbn [f_neg]. rewrite (proj2 (Qle_bool_iff 0 q)) by (apply Qlt_le_weak; apply Hs; exact Z0).
      destruct e; reflexivity.
    - destruct (int_to_fp_exact e (used o q)) as (r & E3 & E4); [|exact Z0|].
      + apply (rounded_representable e q); [exact Hr|apply used_lt1|]. intros k Hk. apply used_int. exact Hk.
      + rewrite E3. exact E4. }
  destruct o; try discriminate Ho; cbn [means]; rewrite He; exact M.
Qed.

(* Infinities, NaNs and the data too large for the integer become 2^31 (2^63), or the
   opposite: wrong beyond it *)
Definition bound (e : elt) : Q := p2 (esize e - 1).
Lemma saturated : forall e, is_fp e = true ->
  (exists r, int_to_fp e (2 ^ (esize e - 1) - 1) = Num r /\ (r == bound e)%Q)
  /\ (exists r, int_to_fp e (- 2 ^ (esize e - 1)) = Num r /\ (r == - bound e)%Q).
Proof. intros [] H; try discriminate H; split; eexists; (split; [vm_compute; reflexivity|reflexivity]). Qed.
Lemma above_int : forall o n q, 1 < n -> (p2 (n - 1) < q)%Q -> 2 ^ (n - 1) <= used o q.
Proof.
  intros o n q Hn Hq. rewrite p2_Z in Hq by lia. pose proof (used_lt1 o q) as U. apply Qabs_Qlt_condition in U.
  assert (K : (inject_Z (2 ^ (n - 1) - 1) < inject_Z (used o q))%Q).
  { replace (2 ^ (n - 1) - 1) with (2 ^ (n - 1) + -(1)) by lia. rewrite inject_Z_plus. change (inject_Z (-(1))) with (-(1))%Q. lra. }
  rewrite <- Zlt_Qlt in K. lia.
Qed.
Lemma below_int : forall o n q, 1 < n -> (q < - p2 (n - 1))%Q -> used o q <= - 2 ^ (n - 1).
Proof.
  intros o n q Hn Hq. rewrite p2_Z in Hq by lia. pose proof (used_lt1 o q) as U. apply Qabs_Qlt_condition in U.
  assert (K : (inject_Z (used o q) < inject_Z (- 2 ^ (n - 1) + 1))%Q).
  { rewrite inject_Z_plus, inject_Z_opp. change (inject_Z 1) with 1%Q. lra. }
  rewrite <- Zlt_Qlt in K. lia.
Qed.
Definition too_large (e : elt) (x : fpv) : Prop :=
  match x with Num q => (bound e < q)%Q | PInf | QNaN | SNaN => True | _ => False end.
Definition too_small (e : elt) (x : fpv) : Prop :=
  match x with Num q => (q < - bound e)%Q | MInf => True | _ => False end.
Theorem rvv_round_saturates_refuted : forall o e vl l i x c, rounding o = true -> is_fp e = true -> rvv_code o (KV e) [KV e] = Some c ->
  Forall (fp_class e) l -> List.length l = vl -> (i < vl)%nat -> nth i l (VI 0) = VF x ->
  exists l', run_code vl [RV e l] c = Some (RV e l')
    /\ (too_large e x -> exists r, nth i l' (VI 0) = VF (Num r) /\ (r == bound e)%Q)
    /\ (too_small e x -> exists r, nth i l' (VI 0) = VF (Num r) /\ (r == - bound e)%Q).
Proof.
  intros o e vl l i x c Ho He H Hl Hv Hi En.
  destruct (to_fp_lanes o e vl l c Ho He H Hl Hv) as (l' & E & _ & L). exists l'. split; [exact E|].
  destruct (saturated e He) as [(r1 & S1 & T1) (r2 & S2 & T2)]. rewrite (L i Hi), En. cbn [fp_of]. pose proof (esize_1 e) as P.
  pose proof (Z.pow_pos_nonneg 2 (esize e - 1) ltac:(lia) ltac:(lia)) as P2.
  split; intros B.
  - exists r1. split; [|exact T1]. rewrite <- S1. do 2 f_equal. destruct x; try contradiction; cbn [fcvt]; try reflexivity.
    cbn [too_large] in B. pose proof (above_int o (esize e) q P B). unfold clamp. lia.
  - exists r2. split; [|exact T2]. rewrite <- S2. do 2 f_equal. destruct x; try contradiction; cbn [fcvt]; try reflexivity.
    cbn [too_small] in B. pose proof (below_int o (esize e) q P B). unfold clamp. lia.
Qed.

(* The sign of zero is lost: -0 and the negative data rounded to zero give +0 *)
Theorem rvv_round_sign_refuted : forall o e vl l i x c, rounding o = true -> is_fp e = true -> rvv_code o (KV e) [KV e] = Some c ->
  Forall (fp_class e) l -> List.length l = vl -> (i < vl)%nat -> nth i l (VI 0) = VF x ->
  x = MZero \/ (exists q, x = Num q /\ (q < 0)%Q /\ used o q = 0) ->
  exists l', run_code vl [RV e l] c = Some (RV e l') /\ nth i l' (VI 0) = VF PZero
    /\ (o <> RFloor -> ~ means o e e [VF x] (nth i l' (VI 0))).
Proof.
  intros o e vl l i x c Ho He H Hl Hv Hi En Hx.
  destruct (to_fp_lanes o e vl l c Ho He H Hl Hv) as (l' & E & _ & L). exists l'. split; [exact E|].
  assert (V : nth i l' (VI 0) = VF PZero).
  { rewrite (L i Hi), En. cbn [fp_of]. assert (F : fcvt (used o) (esize e) x = 0).
    { destruct Hx as [->|(q & -> & _ & U)]; cbn [fcvt]; [reflexivity|]. rewrite U. apply clamp_id.
      pose proof (esize_1 e). pose proof (Z.pow_pos_nonneg 2 (esize e - 1) ltac:(lia) ltac:(lia)). lia. }
    rewrite F. destruct e; reflexivity. }
  split; [exact V|]. rewrite V. intros Nf M.
  assert (R : f_round (lane_rounding o) x = MZero).
  { destruct Hx as [->|(q & -> & Q0 & U)]; cbn [f_round]; [reflexivity|].
    replace (lane_rounding o q) with 0 by (rewrite <- U; destruct o; try discriminate Ho; try reflexivity; elim Nf; reflexivity).
    cbn [Z.eqb f_neg]. destruct (Qle_bool 0 q) eqn:B; [rewrite Qle_bool_iff in B; lra|reflexivity]. }
  assert (K : exists y, VF PZero = VF y /\ same_datum y (f_round (lane_rounding o) x)).
  { destruct o; try discriminate Ho; cbn [means] in M; rewrite He in M; exact M. }
  rewrite R in K. destruct K as (y & Ey & Sy). injection Ey as <-. discriminate Sy.
Qed.

(* The floor in the format: one too many on the negative data that are not integers *)
Theorem rvv_floor_fp_refuted : forall e vl l i q c, is_fp e = true -> rvv_code RFloor (KV e) [KV e] = Some c ->
  Forall (fp_class e) l -> List.length l = vl -> (i < vl)%nat -> nth i l (VI 0) = VF (Num q) ->
  representable (fmt_of_elt e) q -> (Qabs q < p2 (esize e - 1) - 1)%Q -> (q < -(1))%Q -> ~ (q == inject_Z (Qfloor q))%Q ->
  exists l' r, run_code vl [RV e l] c = Some (RV e l')
    /\ nth i l' (VI 0) = VF (Num r) /\ (r == inject_Z (Qfloor q + 1))%Q.
Proof.
  intros e vl l i q c He H Hl Hv Hi En Hr Hq Hneg Hd.
  destruct (to_fp_lanes RFloor e vl l c eq_refl He H Hl Hv) as (l' & E & _ & L).
  pose proof (rnd_bound qtrunc (esize e) q (esize_1 e) (qtrunc_abs_lt q) Hq) as B.
  assert (T : qtrunc q = Qfloor q + 1) by (apply trunc_neg; [lra|exact Hd]).
  destruct (int_to_fp_exact e (qtrunc q)) as (r & E3 & E4).
  - apply (rounded_representable e q); [exact Hr|apply qtrunc_abs_lt|]. intros k Hk. apply FixedProps.qtrunc_int. exact Hk.
  - assert (K : (inject_Z (Qfloor q) < inject_Z (-1))%Q) by (pose proof (Qfloor_le q); change (inject_Z (-1)) with (-(1))%Q; lra).
    rewrite <- Zlt_Qlt in K. lia.
  - exists l', r. split; [exact E|]. split; [|rewrite <- T; exact E4].
    rewrite (L i Hi), En. cbn [fp_of fcvt used]. rewrite clamp_id by exact B. rewrite E3. reflexivity.
Qed.

(* On floating-point elements every operation with two operands accepts a vector and a
   vector or scalar in any order, the standard fused multiply-add all forms with a vector
   factor, the selection all forms; the fourth variant of the fused multiply-add and the
   other comparisons have no entry *)
Definition kof (v : bool) (e : elt) : kind := if v then KV e else KS e.
Theorem rvv_fp_entries : forall e, is_fp e = true ->
  (forall o v w, In o [RAdd; RSub; RMul; RMin; RMax] -> v || w = true -> rvv_code o (KV e) [kof v e; kof w e] <> None)
  /\ (forall v w z, v || w && z = true ->
      rvv_code (RFma FmaStd) (KV e) [kof v e; kof w e; kof z e] <> None)
  /\ (forall v w, rvv_code RSelect (KV e) [KM (esize e); kof v e; kof w e] <> None)
  /\ (forall o, In o [RNeg; RAbs; RNearest; RFloor; RTrunc] -> rvv_code o (KV e) [KV e] <> None)
  /\ (forall o, In o [RConv; RNearest; RFloor; RTrunc] -> rvv_code o (KV (f2i e)) [KV e] <> None)
  /\ (forall ks, rvv_code (RFma FmaNeg) (KV e) ks = None)
  /\ (forall c a b, In c [CLe; CGe; CNe] -> rvv_code (RCmp c) (KM (esize e)) [a; b] = None).
Proof.
  intros e He.
  split; [intros o v w Ho Hv; destruct e; try discriminate He; cbn [In] in Ho;
    repeat (destruct Ho as [<-|Ho]); try contradiction; destruct v, w; discriminate || discriminate Hv|].
  split; [intros v w z Hv; destruct e; try discriminate He; destruct v, w, z; discriminate || discriminate Hv|].
  split; [intros v w; destruct e; try discriminate He; destruct v, w; discriminate|].
  split; [intros o Ho; destruct e; try discriminate He; cbn [In] in Ho; repeat (destruct Ho as [<-|Ho]); try contradiction; discriminate|].
  split; [intros o Ho; destruct e; try discriminate He; cbn [In] in Ho; repeat (destruct Ho as [<-|Ho]); try contradiction; discriminate|].
  split.
  - intros ks. unfold rvv_code. destruct ks as [|a [|b [|c [|d ks]]]]; cbn [number gen]; try reflexivity;
      try (destruct a; reflexivity); try (destruct a, b; reflexivity);
      destruct a as [a|a|a], b as [b|b|b], c as [c|c|c]; try reflexivity;
      destruct (same e a && same e b && same e c); reflexivity.
  - intros c a b Hc. unfold rvv_code. cbn [number gen]. cbn [In] in Hc. repeat (destruct Hc as [<-|Hc]); try contradiction;
      destruct a as [a|a|a], b as [b|b|b]; try reflexivity; try (destruct (is_fp a && same a b && _); reflexivity);
      destruct (same a b && _); try reflexivity; destruct (is_fp a); reflexivity.
Qed.

(* ---- Cases. *)
Example rvv_fma_case :
  exists c, rvv_code (RFma FmaStd) (KV F32) [KS F32; KV F32; KV F32] = Some c
    /\ run_code 2 [RS F32 (VF (Num 3)); RV F32 [VF (Num 2); VF MInf]; RV F32 [VF (Num 1); VF (Num 5)]] c
       = Some (RV F32 [VF (f_fma ML_Binary32 (Num 2) (Num 3) (Num 1)); VF MInf]).
Proof. eexists. split; reflexivity. Qed.
Example rvv_select_case :
  exists c, rvv_code RSelect (KV F64) [KM 64; KS F64; KS F64] = Some c
    /\ run_code 3 [RM 64 [true; false; true]; RS F64 (VF PInf); RS F64 (VF PZero)] c = Some (RV F64 [VF PInf; VF PZero; VF PInf]).
Proof. eexists. split; reflexivity. Qed.
Example rvv_shift_case :
  exists c, rvv_code RShr (KV S32) [KV S32; KS S32] = Some c
    /\ run_code 1 [RV S32 [VI (2 ^ 32 - 8)]; RS S32 (VI 1)] c = Some (RV S32 [VI (2 ^ 31 - 4)]).
Proof. eexists. split; reflexivity. Qed.
Example rvv_rejected_case : exists c, rvv_code RMin (KV U32) [KV U32; KS U32] = Some c
  /\ run_code 1 [RV U32 [VI 3]; RS U32 (VI 4)] c = None.
Proof. eexists. split; reflexivity. Qed.
Example rvv_conversion_case : qrne (7 # 4) <> qtrunc (7 # 4) /\ rvv_code RConv (KV S32) [KV F32] = Some (App "vfcvt_x_f_v" S32 [Arg 0]).
Proof. split; [vm_compute; discriminate|reflexivity]. Qed.
Example rvv_round_case : exists c, rvv_code RFloor (KV F32) [KV F32] = Some c
  /\ exists r, run_code 2 [RV F32 [VF (Num (-5 # 2)); VF (Num (p2 40))]] c = Some (RV F32 r)
     /\ representable (fmt_of_elt F32) (-5 # 2) /\ Qfloor (-5 # 2) = -3.
Proof.
  eexists. split; [reflexivity|]. eexists. split; [reflexivity|]. split; [|reflexivity].
  exists (-5), (-1). split; [cbn; lia|]. split; [cbn; lia|reflexivity].
Qed.

Print Assumptions rvv_table_partial.
Print Assumptions rvv_fp_entries.
Print Assumptions rvv_rejected_refuted.
Print Assumptions rvv_conversion_refuted.
Print Assumptions rvv_floor_refuted.
Print Assumptions rvv_round_partial.
Print Assumptions rvv_round_saturates_refuted.
Print Assumptions rvv_round_sign_refuted.
Print Assumptions rvv_floor_fp_refuted.
