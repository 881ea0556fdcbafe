(* Properties of the RISC-V vector table. *)
From Coq Require Import ZArith QArith Qabs Qround Bool List String Lia.
From Verif Require Import QUtil FpFormatModel PowModel ExpModel Exp2Model CbrtModel LlvmModel LlvmSpec LlvmProofs RvvModel RvvSpec RvvProofs.
Import ListNotations.
Open Scope string_scope.
Open Scope list_scope.
Open Scope Z_scope.

Definition kind_elt (k : kind) : elt := match k with KV e | KS e => e | KM _ => F32 end.
Definition first_elt (ks : list kind) : elt := match ks with k :: _ => kind_elt k | [] => F32 end.
Definition out_elt (out : kind) (ks : list kind) : elt := match out with KM _ => first_elt ks | k => kind_elt k end.

(* the entries whose value is that of the operation *)
Definition row_ok (o : rop) (out : kind) (ks : list kind) : bool :=
  let e := out_elt out ks in
  match o with
  | RFma _ => is_fp e
  | RNeg => negb (is_unsigned e)
  | RSra => is_signed e
  | RMin | RMax => negb (is_unsigned e)
  | RConv => is_signed (first_elt ks)
  | RNearest | RTrunc => negb (is_fp e)
  | RFloor => false
  | _ => true
  end.
Definition shape (vl : nat) (out : kind) (r : rv) : Prop :=
  match out, r with
  | KV e, RV a l => a = e /\ List.length l = vl
  | KM n, RM m l => m = n /\ List.length l = vl
  | _, _ => False
  end.

(* one operation: its entries, the values of the operands, one lane *)
Definition row_correct (o : rop) : Prop := forall out ks c vl args,
  rvv_code o out ks = Some c -> row_ok o out ks = true -> Forall2 (typed vl) ks args ->
  exists r, run_code vl args c = Some r /\ shape vl out r
    /\ forall i, (i < vl)%nat -> means o (out_elt out ks) (first_elt ks) (map (at_lane i) args) (at_lane i r).

Ltac unify_elts H :=
  unfold int_binary, fp_binary in H; unfold binary in H;
  repeat match type of H with
  | context [if ?b then _ else _] => destruct b eqn:?; try discriminate H
  | context [match ?b with FmaStd => _ | _ => _ end] => destruct b eqn:?; try discriminate H
  | context [match ?b with CEq => _ | _ => _ end] => destruct b eqn:?; try discriminate H
  end;
  repeat match goal with
  | K : _ && _ = true |- _ => apply andb_true_iff in K; destruct K
  | K : negb _ = true |- _ => apply negb_true_iff in K
  | K : (_ =? _) = true |- _ => apply Z.eqb_eq in K; subst
  | K : same ?a ?b = true |- _ => apply same_eq in K; subst
  end.
Ltac operands :=
  repeat match goal with
  | K : Forall2 _ _ ?l |- _ => is_var l; inversion K; clear K; subst
  | K : Forall2 _ [] _ |- _ => clear K
  | K : typed _ (KV _) ?v |- _ => destruct v as [? ?|? ?|? ?]; cbn [typed] in K; try contradiction; destruct K as (? & ? & ?); subst
  | K : typed _ (KS _) ?v |- _ => destruct v as [? ?|? ?|? ?]; cbn [typed] in K; try contradiction; destruct K as (? & ?); subst
  | K : typed _ (KM _) ?v |- _ => destruct v as [? ?|? ?|? ?]; cbn [typed] in K; try contradiction; destruct K as (? & ?); subst
  end.
Ltac entries :=
  intros out ks c vl args H R T; unfold rvv_code in H;
  destruct out as [e|e|n]; try discriminate H;
  destruct ks as [|[?|?|?] [|[?|?|?] [|[?|?|?] [|? ?]]]]; try discriminate H;
  cbn [number gen] in H; unify_elts H; cbn [row_ok out_elt first_elt kind_elt] in R.

Ltac lens := repeat rewrite map2_length; repeat rewrite map_length; repeat rewrite repeat_length; congruence.
Ltac class_cases K :=
  cbn [fp_class is_fp] in K; first [contradiction | discriminate K | (exfalso; destruct K; discriminate) | idtac].
Ltac classes i :=
  repeat match goal with
  | K : Forall (fp_class ?e) ?l |- _ =>
      apply class_nth with (i := i) in K; [|lens || lia];
      destruct (nth i l (VI 0)) as [?|?|?]; class_cases K
  end;
  repeat match goal with
  | K : fp_class _ ?v |- _ => is_var v; destruct v as [?|?|?]; class_cases K
  end.
Ltac lanes :=
  let i := fresh "i" in let Hi := fresh "Hi" in
  intros i Hi; cbn [at_lane map];
  repeat first [rewrite (nth_map2 _ _ _ _ _ _ _ _ (VI 0) (VI 0)) by (lens || lia)
               | rewrite (nth_map2 _ _ _ _ _ _ _ _ (VI 0) (VI 0, VI 0)) by (lens || lia)
               | rewrite (nth_map2 _ _ _ _ _ _ _ _ false (VI 0)) by (lens || lia)
               | rewrite (nth_map2 _ _ _ _ _ _ _ _ false (VI 0, VI 0)) by (lens || lia)
               | rewrite (nth_map1 _ _ _ _ _ _ (VI 0)) by (lens || lia)
               | rewrite nth_repeat' by lia];
  classes i.
Ltac row :=
  match goal with H : Some _ = Some _ |- _ => injection H as <- | _ => idtac end;
  operands; eexists; split; [reflexivity|]; split; [cbn [shape]; split; [reflexivity|lens]|].
Ltac rows := entries; match goal with e : elt |- _ => destruct e end; try discriminate; row; lanes; cbn [out_elt first_elt kind_elt means].

Lemma word_id : forall e z, 0 <= z < 2 ^ esize e -> word e z = VI z.
Proof. intros e z H. unfold word. rewrite Z.mod_small by exact H. reflexivity. Qed.
Ltac ranges := repeat match goal with K : _ /\ _ |- _ => destruct K end.

Lemma add_rows : row_correct RAdd.
Proof. rows; cbn [int_of fp_of]; first [reflexivity|rewrite f_add_comm; reflexivity|rewrite Z.add_comm; reflexivity]. Qed.
Lemma sub_rows : row_correct RSub.
Proof. rows; reflexivity. Qed.
Lemma mul_rows : row_correct RMul.
Proof. rows; cbn [int_of fp_of]; first [reflexivity|rewrite f_mul_comm; reflexivity|rewrite Z.mul_comm; reflexivity]. Qed.
Lemma land_range : forall n x y, 0 <= n -> 0 <= x < 2 ^ n -> 0 <= y -> 0 <= Z.land x y < 2 ^ n.
Proof.
  intros n x y Hn Hx Hy. split; [apply Z.land_nonneg; lia|].
  destruct (Z.eq_dec (Z.land x y) 0) as [->|N]; [lia|].
  assert (0 <= Z.land x y) by (apply Z.land_nonneg; lia).
  apply Z.log2_lt_pow2; [lia|]. apply Z.le_lt_trans with (Z.log2 x).
  - pose proof (Z.log2_land x y ltac:(lia) ltac:(lia)). lia.
  - destruct (Z.eq_dec x 0) as [->|]; [rewrite Z.land_0_l in N; lia|]. apply Z.log2_lt_pow2; lia.
Qed.
Lemma lor_range : forall n x y, 0 < n -> 0 <= x < 2 ^ n -> 0 <= y < 2 ^ n -> 0 <= Z.lor x y < 2 ^ n.
Proof.
  intros n x y Hn Hx Hy. split; [apply Z.lor_nonneg; lia|].
  destruct (Z.eq_dec (Z.lor x y) 0) as [->|N]; [lia|].
  assert (0 <= Z.lor x y) by (apply Z.lor_nonneg; lia).
  apply Z.log2_lt_pow2; [lia|]. rewrite Z.log2_lor by lia.
  assert (forall z, 0 <= z < 2 ^ n -> Z.log2 z < n).
  { intros z Hz. destruct (Z.eq_dec z 0) as [->|]; [cbn; lia|]. apply Z.log2_lt_pow2; lia. }
  pose proof (H0 x Hx). pose proof (H0 y Hy). lia.
Qed.
Lemma and_rows : row_correct RAnd.
Proof. rows; cbn [int_of]; ranges; apply word_id; apply land_range; cbn [esize] in *; lia. Qed.
Lemma or_rows : row_correct ROr.
Proof. rows; cbn [int_of]; ranges; apply word_id; apply lor_range; cbn [esize] in *; lia. Qed.
Lemma mod_rows : row_correct RMod.
Proof.
  rows; cbn [int_of]; intros N; ranges; unfold ivalue; cbn [is_signed]; unfold sread; cbn [int_of];
    [| |rewrite (proj2 (Z.eqb_neq _ _) N), Z.rem_mod_nonneg by lia; reflexivity..].
  all: f_equal; match goal with |- context [s_read ?n ?y =? 0] => destruct (Z.eqb_spec (s_read n y) 0) as [E|E] end; try reflexivity.
  all: exfalso; unfold s_read in E; cbn [esize] in *; destruct (_ <=? _); lia.
Qed.
Lemma neg_rows : row_correct RNeg.
Proof. rows; cbn [int_of fp_of]; reflexivity. Qed.
Lemma shl_rows : row_correct RShl.
Proof. rows; cbn [int_of]; ranges; intros L; rewrite (Z.mod_small _ (esize _)) by lia; reflexivity. Qed.
Lemma shift_range : forall e x y, 0 <= x < 2 ^ esize e -> 0 <= y -> 0 <= x / 2 ^ y < 2 ^ esize e.
Proof.
  intros e x y Hx Hy. pose proof (Z.pow_pos_nonneg 2 y ltac:(lia) Hy). split; [apply Z.div_pos; lia|].
  apply Z.le_lt_trans with x; [|lia]. apply Z.div_le_upper_bound; nia.
Qed.
Lemma shr_rows : row_correct RShr.
Proof.
  entries; repeat match goal with e : elt |- _ => destruct e end; try discriminate; row; lanes; cbn [out_elt first_elt kind_elt means];
    cbn [int_of]; ranges; intros L;
    try change (to_unsigned_elt S32) with U32; try change (to_unsigned_elt S64) with U64;
    rewrite (Z.mod_small _ (esize _)) by (cbn [esize] in *; lia); apply word_id; apply shift_range; cbn [esize] in *; lia.
Qed.
Lemma sra_rows : row_correct RSra.
Proof. rows; cbn [int_of]; ranges; intros L; rewrite (Z.mod_small _ (esize _)) by (cbn [esize] in *; lia); reflexivity. Qed.
Lemma cast_rows : row_correct RCast.
Proof.
  entries; repeat match goal with e : elt |- _ => destruct e end; try discriminate; row; lanes; cbn [out_elt first_elt kind_elt means]; reflexivity.
Qed.
Lemma conv_rows : row_correct RConv.
Proof.
  entries; repeat match goal with e : elt |- _ => destruct e end; try discriminate; row; lanes; cbn [out_elt first_elt kind_elt means]; reflexivity.
Qed.
Lemma to_int_fcvt : forall rnd n x z, 0 < n -> to_int rnd n x = Some z -> fcvt rnd n x = z.
Proof.
  intros rnd n x z Hn H. unfold to_int in H. unfold fcvt. destruct x; try discriminate; try (injection H as <-; reflexivity).
  destruct (Z.leb_spec (- 2 ^ (n - 1)) (rnd q)), (Z.ltb_spec (rnd q) (2 ^ (n - 1))); try discriminate. injection H as <-.
  unfold clamp. lia.
Qed.
Lemma nearest_rows : row_correct RNearest.
Proof.
  entries; repeat match goal with e : elt |- _ => destruct e end; try discriminate; row; lanes; cbn [out_elt first_elt kind_elt means is_fp];
    intros z Hz; (apply to_int_fcvt in Hz; [|reflexivity]); cbn [lane_rounding] in Hz; cbn [fp_of esize] in *; rewrite Hz; reflexivity.
Qed.
Lemma trunc_rows : row_correct RTrunc.
Proof.
  entries; repeat match goal with e : elt |- _ => destruct e end; try discriminate; row; lanes; cbn [out_elt first_elt kind_elt means is_fp];
    intros z Hz; (apply to_int_fcvt in Hz; [|reflexivity]); cbn [lane_rounding] in Hz; cbn [fp_of esize] in *; rewrite Hz; reflexivity.
Qed.
Lemma floor_rows : row_correct RFloor.
Proof. intros out ks c vl args _ R. discriminate R. Qed.
Lemma select_rows : row_correct RSelect.
Proof.
  rows; match goal with |- context [nth ?i ?l false] => destruct (nth i l false) end; reflexivity.
Qed.
Lemma abs_rows : row_correct RAbs.
Proof. rows; reflexivity. Qed.
Lemma fma_rows : forall k, row_correct (RFma k).
Proof. intros k; rows; cbn [fma_of fp_of]; first [reflexivity|rewrite f_fma_comm; reflexivity]. Qed.
Lemma sread_inj : forall e x y, 0 <= x < 2 ^ esize e -> 0 <= y < 2 ^ esize e -> (sread e (VI x) ?= sread e (VI y)) = Eq <-> x = y.
Proof.
  intros e x y Hx Hy. rewrite Z.compare_eq_iff. unfold sread. cbn [int_of]. split; [|intros ->; reflexivity].
  pose proof (esize_pos e) as Hp. unfold s_read.
  assert (E : 2 ^ esize e = 2 * 2 ^ (esize e - 1)) by (rewrite <- Z.pow_succ_r by lia; f_equal; lia).
  destruct (Z.leb_spec (2 ^ (esize e - 1)) x), (Z.leb_spec (2 ^ (esize e - 1)) y); lia.
Qed.
Lemma eq_value : forall e x y, 0 <= x < 2 ^ esize e -> 0 <= y < 2 ^ esize e ->
  holds CEq (ivalue e (VI x) ?= ivalue e (VI y)) = (x =? y).
Proof.
  intros e x y Hx Hy. unfold ivalue. destruct (is_signed e).
  - pose proof (sread_inj e x y Hx Hy) as I. destruct (Z.eqb_spec x y) as [E|E].
    + rewrite (proj2 I E). reflexivity.
    + destruct (_ ?= _) eqn:K; try reflexivity. elim E. apply I. reflexivity.
  - cbn [int_of]. destruct (Z.compare_spec x y); destruct (Z.eqb_spec x y); try reflexivity; lia.
Qed.
Lemma cmp_rows : forall c, row_correct (RCmp c).
Proof.
  intros k; rows; ranges; unfold bit; try (rewrite eq_value by (cbn [esize] in *; lia); reflexivity);
    unfold fp_holds; cbn [fp_of]; destruct (f_compare _ _); reflexivity.
Qed.
Lemma signed_range : forall e x y, 0 <= x < 2 ^ esize e -> 0 <= y < 2 ^ esize e ->
  - 2 ^ (esize e - 1) <= Z.min (sread e (VI x)) (sread e (VI y)) < 2 ^ (esize e - 1)
  /\ - 2 ^ (esize e - 1) <= Z.max (sread e (VI x)) (sread e (VI y)) < 2 ^ (esize e - 1).
Proof.
  intros e x y Hx Hy. pose proof (s_read_range _ _ (esize_pos e) Hx). pose proof (s_read_range _ _ (esize_pos e) Hy).
  unfold sread. cbn [int_of]. lia.
Qed.
Lemma min_rows : row_correct RMin.
Proof.
  rows; ranges; unfold word; eexists; (split; [reflexivity|]); cbn [fp_of];
    try first [apply vfmin_extremum|apply extremum_sym; [apply f_le_refl|apply vfmin_extremum]];
    unfold ivalue; cbn [is_signed]; unfold sread at 1; cbn [int_of];
    rewrite s_read_word by (first [apply esize_pos|apply signed_range; cbn [esize] in *; lia]); first [reflexivity|apply Z.min_comm].
Qed.
Lemma max_rows : row_correct RMax.
Proof.
  rows; ranges; unfold word; eexists; (split; [reflexivity|]); cbn [fp_of];
    try first [apply vfmax_extremum|apply extremum_sym; [intros; apply f_le_refl; assumption|apply vfmax_extremum]];
    unfold ivalue; cbn [is_signed]; unfold sread at 1; cbn [int_of];
    rewrite s_read_word by (first [apply esize_pos|apply signed_range; cbn [esize] in *; lia]); first [reflexivity|apply Z.max_comm].
Qed.

(* ---- The table: for every operation, types of the operands for which it has an entry and
   which is not one of those excluded by row_ok, and every length: the code generated is
   accepted and each lane of its result holds the operation on the lanes of the operands, a
   scalar standing for a vector of copies *)
Theorem rvv_table_partial : forall o out ks c vl args,
  rvv_code o out ks = Some c -> row_ok o out ks = true -> Forall2 (typed vl) ks args ->
  exists r, run_code vl args c = Some r /\ shape vl out r
    /\ forall i, (i < vl)%nat -> means o (out_elt out ks) (first_elt ks) (map (at_lane i) args) (at_lane i r).
Proof.
  intros o. change (row_correct o). destruct o.
  - apply add_rows. - apply sub_rows. - apply mul_rows. - apply mod_rows. - apply and_rows. - apply or_rows.
  - apply neg_rows. - apply shl_rows. - apply shr_rows. - apply sra_rows. - apply cast_rows. - apply conv_rows.
  - apply nearest_rows. - apply floor_rows. - apply trunc_rows. - apply select_rows. - apply cmp_rows.
  - apply abs_rows. - apply min_rows. - apply max_rows. - apply fma_rows.
Qed.
