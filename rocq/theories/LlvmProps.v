(* Theorems on the LLVM instruction table: properties C114 and C115. *)
From Coq Require Import ZArith QArith Qabs Qround Bool List String Lia Lqa.
From Verif Require Import QUtil FpFormatModel PowModel ExpModel ExpRecon Exp2Model CbrtModel LlvmModel LlvmSpec LlvmProofs.
From Verif Require Import VecModel VecLanes MaskModel MaskProps.
Import ListNotations.
Open Scope string_scope.
Open Scope list_scope.
Open Scope Z_scope.

Definition one2 (t : ty) (a b : val) : env := [(t, a); (t, b)].
Definition word (n x : Z) : Prop := (n = 32 \/ n = 64) /\ 0 <= x < 2 ^ n.

(* ---- integers *)
Theorem llvm_int_arith : forall n x y, word n x -> word n y ->
  let r o := exec (select o (FInt n) (FInt n)) (one2 (TInt n) (VI x) (VI y)) in
  r OAdd = Some (TInt n, VI ((x + y) mod 2 ^ n)) /\
  r OSub = Some (TInt n, VI ((x - y) mod 2 ^ n)) /\
  r OMul = Some (TInt n, VI ((x * y) mod 2 ^ n)) /\
  r OBitAnd = Some (TInt n, VI (Z.land x y)) /\
  exec (select ONeg (FInt n) (FInt n)) [(TInt n, VI x)] = Some (TInt n, VI ((- x) mod 2 ^ n)) /\
  (y < n -> r OShl = Some (TInt n, VI ((x * 2 ^ y) mod 2 ^ n)) /\ r OShr = Some (TInt n, VI (x / 2 ^ y))).
Proof.
  intros n x y [[->| ->] Hx] [_ Hy] r; subst r; cbv -[Z.modulo Z.add Z.sub Z.mul Z.pow Z.land Z.ltb Z.lt Z.div Z.opp];
    (do 5 (split; [reflexivity|])); intros L; apply Z.ltb_lt in L; cbv -[Z.ltb Z.lt] in L; rewrite ?L;
    cbv -[Z.modulo Z.add Z.sub Z.mul Z.pow Z.land Z.ltb Z.lt Z.div Z.opp]; rewrite ?L; split; reflexivity.
Qed.
Lemma s_read_inj : forall n x y, 0 <= x < 2 ^ n -> 0 <= y < 2 ^ n -> (s_read n x = s_read n y <-> x = y).
Proof.
  intros n x y Hx Hy. unfold s_read. split; [|intros ->; reflexivity].
  destruct (Z.leb_spec (2 ^ (n - 1)) x), (Z.leb_spec (2 ^ (n - 1)) y); lia.
Qed.
Theorem llvm_icmp : forall n c x y, n = 32 \/ n = 64 \/ n = 128 \/ n = 256 -> 0 <= x < 2 ^ n -> 0 <= y < 2 ^ n ->
  c <> CGe ->
  exec (select (OComp c) FBool (FInt n)) (one2 (TInt n) (VI x) (VI y)) =
  Some (TInt 1, bit (holds c (s_read n x ?= s_read n y))).
Proof.
  intros n c x y N Hx Hy NC.
  assert (E : forall c, c = CEq \/ c = CNe -> holds c (x ?= y) = holds c (s_read n x ?= s_read n y)).
  { intros d D. pose proof (s_read_inj n x y Hx Hy) as I.
    destruct (Z.compare_spec x y) as [L|L|L], (Z.compare_spec (s_read n x) (s_read n y)) as [M|M|M];
      destruct D as [->| ->]; auto; exfalso; try (apply I in M; lia); subst y; lia. }
  assert (R : forall c, exec (select (OComp c) FBool (FInt n)) (one2 (TInt n) (VI x) (VI y)) =
    option_map (fun b => (TInt 1, bit b)) (icmp_scalar (ipred c) n x y)).
  { intros d. unfold select, one2. cbn [llvm_ir_format scalar_ty].
    replace ((n =? 32) || (n =? 64) || (n =? 128) || (n =? 256)) with true
      by (destruct N as [->|[->|[->| ->]]]; reflexivity).
    cbn [option_map exec run step read nth_error ty_eqb]. rewrite Z.eqb_refl. cbn [lanes2 icmp_val bool_ty].
    destruct (icmp_scalar (ipred d) n x y); reflexivity. }
  rewrite R. destruct c; try contradiction; cbn [ipred]; unfold icmp_scalar; cbn [String.eqb Ascii.eqb Bool.eqb];
    cbn [option_map]; rewrite ?E by auto; reflexivity.
Qed.
(* icmp has no predicate "ge": the line is rejected whatever the operands are *)
Theorem llvm_icmp_ge_refuted : forall n x y,
  exec (select (OComp CGe) FBool (FInt n)) (one2 (TInt n) (VI x) (VI y)) = None.
Proof.
  intros n x y. unfold select. cbn [llvm_ir_format scalar_ty].
  destruct ((n =? 32) || (n =? 64) || (n =? 128) || (n =? 256)); [|reflexivity].
  cbn [option_map exec run step read nth_error one2 ty_eqb]. rewrite Z.eqb_refl. reflexivity.
Qed.

(* ---- floating-point comparisons *)
Definition llvm_float (f : fmt) (t : ty) (G : fpfmt) : Prop :=
  (f = FB32 /\ t = TFloat /\ G = ML_Binary32) \/ (f = FB64 /\ t = TDouble /\ G = ML_Binary64).
Theorem llvm_fcmp : forall f t G c a b, llvm_float f t G -> c <> CNe ->
  exec (select (OComp c) FBool f) (one2 t (VF a) (VF b)) = Some (TInt 1, bit (fp_holds c a b)).
Proof.
  intros f t G c a b [[-> [-> ->]]|[-> [-> ->]]] N; destruct c; try contradiction; unfold fp_holds;
    cbn -[f_compare]; destruct (f_compare a b); reflexivity.
Qed.
Theorem llvm_fcmp_ne_refuted : forall f t G a b, llvm_float f t G ->
  exec (select (OComp CNe) FBool f) (one2 t (VF a) (VF b)) = None.
Proof. intros f t G a b [[-> [-> ->]]|[-> [-> ->]]]; reflexivity. Qed.

(* ---- negations *)
Theorem llvm_fp_neg_partial : forall f t G x, llvm_float f t G -> x <> PZero -> x <> SNaN ->
  exec (select ONeg f f) [(t, VF x)] = Some (t, VF (f_opp x)).
Proof.
  intros f t G x [[-> [-> ->]]|[-> [-> ->]]] NZ NS; destruct x; try contradiction; reflexivity.
Qed.
Theorem llvm_fp_neg_zero_refuted : forall f t G, llvm_float f t G ->
  exec (select ONeg f f) [(t, VF PZero)] = Some (t, VF PZero) /\ f_opp PZero <> PZero.
Proof. intros f t G [[-> [-> ->]]|[-> [-> ->]]]; split; try reflexivity; discriminate. Qed.
(* a scalar literal is not a vector *)
Theorem llvm_vector_neg_refuted : forall k e code a, select ONeg (FVec k e) (FVec k e) = Some code -> exec (Some code) a = None.
Proof.
  intros k e code a H. unfold select in H. destruct (int_list (FVec k e) || fp_list (FVec k e)); [|discriminate].
  cbn [llvm_ir_format] in H. destruct (vector_len k && vector_elt e); [|discriminate].
  destruct (scalar_ty e); [|discriminate]. cbn [option_map] in H. injection H as <-. reflexivity.
Qed.
Theorem llvm_vector_not_refuted : forall k e code a, select OLNot (FVec k e) (FVec k e) = Some code -> exec (Some code) a = None.
Proof.
  intros k e code a H. unfold select in H. destruct (bool_list (FVec k e)); [|discriminate].
  cbn [llvm_ir_format] in H. destruct (vector_len k && vector_elt e); [|discriminate].
  destruct (scalar_ty e); [|discriminate]. cbn [option_map] in H. injection H as <-. reflexivity.
Qed.
Theorem llvm_bool_ops : forall a b : bool,
  exec (select OLNot FBool FBool) [(TInt 1, bit a)] = Some (TInt 1, bit (negb a)) /\
  exec (select OLAnd FBool FBool) (one2 (TInt 1) (bit a) (bit b)) = Some (TInt 1, bit (a && b)) /\
  exec (select OLOr FBool FBool) (one2 (TInt 1) (bit a) (bit b)) = Some (TInt 1, bit (a || b)).
Proof. intros [|] [|]; repeat split. Qed.

(* ---- arithmetic of vectors: lane by lane *)
Definition lanes_ok (k : nat) (l : list val) (p : val -> Prop) : Prop := List.length l = k /\ Forall p l.
Lemma map2o_some : forall (g : val -> val -> option val) h (p : val -> Prop), (forall a b, p a -> p b -> g a b = Some (h a b)) ->
  forall l m, List.length l = List.length m -> Forall p l -> Forall p m ->
  map2o g l m = Some (map (fun ab => h (fst ab) (snd ab)) (combine l m)).
Proof.
  intros g h p H. induction l as [|a l IH]; intros [|b m] L Fl Fm; try discriminate; auto.
  inversion Fl; inversion Fm; subst. cbn [map2o combine map fst snd]. rewrite H by auto. rewrite IH by (cbn in L; auto; lia). reflexivity.
Qed.
Theorem llvm_vector_fp_add_mul : forall k f t G l m, vector_len k = true -> llvm_float f t G ->
  lanes_ok k l (fun v => exists x, v = VF x) -> lanes_ok k m (fun v => exists x, v = VF x) ->
  let lane h := VV (map (fun ab => match fst ab, snd ab with VF x, VF y => VF (h x y) | _, _ => VI 0 end) (combine l m)) in
  exec (select OAdd (FVec k f) (FVec k f)) (one2 (TVec k t) (VV l) (VV m)) = Some (TVec k t, lane (f_add G)) /\
  exec (select OSub (FVec k f) (FVec k f)) (one2 (TVec k t) (VV l) (VV m)) = Some (TVec k t, lane (fun x y => f_add G x (f_opp y))) /\
  exec (select OMul (FVec k f) (FVec k f)) (one2 (TVec k t) (VV l) (VV m)) = Some (TVec k t, lane (f_mul G)).
Proof.
  intros k f t G l m K F [Ll Fl] [Lm Fm] lane; subst lane.
  assert (Q : forall op h, (forall x y, bin_scalar op t (VF x) (VF y) = Some (VF (h x y))) ->
    exec (Some [Bin op (TVec k t) (Res 0) (Res 1)]) (one2 (TVec k t) (VV l) (VV m)) =
    Some (TVec k t, VV (map (fun ab => match fst ab, snd ab with VF x, VF y => VF (h x y) | _, _ => VI 0 end) (combine l m)))).
  { intros op h H. cbn [exec run step read nth_error one2].
    replace (ty_eqb (TVec k t) (TVec k t)) with true
      by (cbn [ty_eqb]; rewrite Nat.eqb_refl; destruct F as [[_ [-> _]]|[_ [-> _]]]; reflexivity).
    cbn [lanes2]. rewrite (map2o_some _ (fun a b => match a, b with VF x, VF y => VF (h x y) | _, _ => VI 0 end)
      (fun v => exists x, v = VF x)); [|intros a b [x ->] [y ->]; apply H|lia|exact Fl|exact Fm].
    reflexivity. }
  assert (S : forall op, ibin op (FVec k f) = Some [Bin op (TVec k t) (Res 0) (Res 1)]).
  { intros op. unfold ibin. cbn [llvm_ir_format]. rewrite K.
    destruct F as [[-> [-> _]]|[-> [-> _]]]; reflexivity. }
  assert (N : int_list (FVec k f) = false /\ fp_list (FVec k f) = true).
  { cbn [int_list fp_list]. destruct F as [[-> _]|[-> _]]; split; auto. }
  destruct N as [N1 N2]. unfold select. rewrite N1, N2, !S.
  split; [|split]; apply Q; intros x y; destruct F as [[_ [-> ->]]|[_ [-> ->]]]; reflexivity.
Qed.

(* ---- nearest integers and conversions *)
Theorem llvm_sext : forall x, 0 <= x < 2 ^ 32 ->
  exists r, exec (select OConv (FInt 64) (FInt 32)) [(TInt 32, VI x)] = Some (TInt 64, VI r) /\
    0 <= r < 2 ^ 64 /\ s_read 64 r = s_read 32 x.
Proof.
  intros x H. exists ((s_read 32 x) mod 2 ^ 64). split; [reflexivity|]. split; [apply Z.mod_pos_bound; lia|].
  unfold s_read. change (2 ^ (32 - 1)) with 2147483648. change (2 ^ 32) with 4294967296 in *.
  change (2 ^ 64) with 18446744073709551616. change (2 ^ (64 - 1)) with 9223372036854775808.
  destruct (Z.leb_spec 2147483648 x).
  - rewrite <- (Z.mod_add (x - 4294967296) 1 18446744073709551616) by lia. rewrite Z.mod_small by lia.
    destruct (Z.leb_spec 9223372036854775808 (x - 4294967296 + 1 * 18446744073709551616)); lia.
  - rewrite Z.mod_small by lia. destruct (Z.leb_spec 9223372036854775808 x); lia.
Qed.
(* the conversion of the table truncates: right exactly when truncation is the nearest *)
Theorem llvm_nearest_int32_partial : forall q, - 2 ^ 31 <= qtrunc q < 2 ^ 31 ->
  exists z, exec (select ONearest (FInt 32) FB32) [(TFloat, VF (Num q))] = Some (TInt 32, VI z) /\
    s_read 32 z = qtrunc q /\
    (nearest_integer q (s_read 32 z) <-> (Qabs (q - inject_Z (qtrunc q)) <= 1 # 2)%Q).
Proof.
  intros q H.
  assert (S : s_read 32 (qtrunc q mod 2 ^ 32) = qtrunc q).
  { unfold s_read. change (2 ^ (32 - 1)) with 2147483648. change (2 ^ 32) with 4294967296 in *.
    change (2 ^ 31) with 2147483648 in H.
    destruct (Z.neg_nonneg_cases (qtrunc q)) as [L|L].
    - rewrite <- (Z.mod_add (qtrunc q) 1 4294967296) by lia. rewrite Z.mod_small by lia.
      destruct (Z.leb_spec 2147483648 (qtrunc q + 1 * 4294967296)); lia.
    - rewrite Z.mod_small by lia. destruct (Z.leb_spec 2147483648 (qtrunc q)); lia. }
  exists (qtrunc q mod 2 ^ 32). split; [|split; [exact S|unfold nearest_integer; rewrite S; reflexivity]].
  cbn [select exec run step read nth_error ty_eqb cast_val cast_scalar flt String.eqb Ascii.eqb Bool.eqb].
  cbv zeta. change (32 - 1) with 31.
  rewrite (proj2 (Z.leb_le _ _) (proj1 H)), (proj2 (Z.ltb_lt _ _) (proj2 H)). reflexivity.
Qed.
Theorem llvm_nearest_int32_refuted : forall z f, 0 <= z < 2 ^ 31 -> (1 # 2 < f)%Q -> (f < 1)%Q ->
  exists r, exec (select ONearest (FInt 32) FB32) [(TFloat, VF (Num (inject_Z z + f)%Q))] = Some (TInt 32, VI r) /\
    s_read 32 r = z /\ ~ nearest_integer (inject_Z z + f) (s_read 32 r).
Proof.
  intros z f H F1 F2.
  assert (T : qtrunc (inject_Z z + f) = z).
  { assert ((0 <= inject_Z z)%Q) by (change 0%Q with (inject_Z 0); rewrite <- Zle_Qle; lia).
    unfold qtrunc. replace (Qle_bool 0 (inject_Z z + f)) with true by (symmetry; apply Qle_bool_iff; lra).
    apply floor_unique; rewrite ?inject_Z_plus; change (inject_Z 1) with 1%Q; lra. }
  destruct (llvm_nearest_int32_partial (inject_Z z + f)) as [r [E [S I]]]; [rewrite T; lia|].
  exists r. split; [exact E|]. rewrite S. split; auto. rewrite <- S. intros N. apply I in N. rewrite T in N.
  apply Qabs_Qle_condition in N. lra.
Qed.
(* the operand of the conversion to 64 bits is announced as a float *)
Theorem llvm_nearest_int64_refuted : forall v,
  exec (select ONearest (FInt 64) FB64) [(TDouble, v)] = None.
Proof. reflexivity. Qed.
Theorem llvm_nearbyint : forall f t G q, llvm_float f t G ->
  exists r, exec (select ONearest f f) [(t, VF (Num q))] = Some (t, VF r) /\
    exists z, nearest_integer q z /\ (f_q r == inject_Z z)%Q.
Proof.
  intros f t G q F. exists (nearbyint (Num q)). split; [destruct F as [[-> [-> ->]]|[-> [-> ->]]]; reflexivity|].
  exists (qrne q). split.
  - unfold nearest_integer. rewrite Qabs_Qminus. apply qrne_half.
  - unfold nearbyint. destruct (Z.eqb_spec (qrne q) 0) as [E|E]; [rewrite E; destruct (f_neg (Num q)); reflexivity|reflexivity].
Qed.
(* no intrinsic of that name takes vectors *)
Theorem llvm_vector_nearbyint_refuted : forall v,
  exec (select ONearest (FVec 4 FB32) (FVec 4 FB32)) [(TVec 4 TFloat, v)] = None.
Proof. reflexivity. Qed.

(* ---- fused multiply and add *)
Definition args3 (t : ty) (a b c : fpv) : env := [(t, VF a); (t, VF b); (t, VF c)].
Definition plus_opp (G : fpfmt) (v : fpv) : fpv := f_add G PZero (f_opp v).
Lemma plus_opp_is : forall G v, v <> PZero -> v <> SNaN -> plus_opp G v = f_opp v.
Proof. intros G [q| | | | | |] A B; try contradiction; reflexivity. Qed.
Lemma fma_code_run : forall f t G k a b c, llvm_float f t G ->
  exec (select (OFma k) f f) (args3 t a b c) =
  Some (t, VF (match k with
               | FmaStd => f_fma G a b c
               | FmaSub => f_fma G a b (plus_opp G c)
               | FmaNeg => plus_opp G (f_fma G a b c)
               | FmaSubNeg => f_fma G (plus_opp G a) b c
               end)).
Proof. intros f t G k a b c [[-> [-> ->]]|[-> [-> ->]]]; destruct k; reflexivity. Qed.
Lemma fma_not_snan : forall G a b c, f_fma G a b c <> SNaN.
Proof.
  intros G a b c. unfold f_fma. cbv zeta.
  destruct (t_nan a || t_nan b || t_nan c) eqn:N; [discriminate|].
  destruct (t_inf a && t_zero b || t_zero a && t_inf b); [discriminate|].
  destruct (t_inf a || t_inf b).
  - destruct (t_inf c && _); [discriminate|]. destruct (xorb _ _); discriminate.
  - destruct (t_inf c); [intros ->; cbn in N; rewrite orb_true_r in N; discriminate|].
    destruct (Qeq_bool _ _); [destruct (_ && _ && _ && _); discriminate|].
    destruct (sollya_round G _) as [q|]; cbn [datum]; [destruct (Qeq_bool q 0); [|discriminate]|]; match goal with |- context [negb ?x] => destruct (negb x) end; discriminate.
Qed.
Theorem llvm_fma_partial : forall f t G k a b c, llvm_float f t G -> proper a -> proper c ->
  (k = FmaSub -> c <> PZero /\ c <> SNaN) -> (k = FmaSubNeg -> a <> PZero /\ a <> SNaN) ->
  (k = FmaNeg -> f_fma G a b c <> PZero /\
     ~ ((t_inf a || t_inf b || t_inf c) = false /\ (f_q a * f_q b + f_q c == 0)%Q)) ->
  exec (select (OFma k) f f) (args3 t a b c) = Some (t, VF (fma_of G k a b c)).
Proof.
  intros f t G k a b c F Pa Pc S1 S2 S3. rewrite (fma_code_run f t G k a b c F).
  destruct k; cbn [fma_of]; [reflexivity| | |].
  - destruct (S1 eq_refl). rewrite plus_opp_is by auto. reflexivity.
  - destruct (S3 eq_refl). rewrite plus_opp_is by (auto using fma_not_snan). rewrite fma_opp by auto. reflexivity.
  - destruct (S2 eq_refl). rewrite plus_opp_is by auto. reflexivity.
Qed.
(* the sign of a null result: a negated operand or result which is +0 keeps its sign *)
Theorem llvm_fma_zero_refuted : forall f t G q, llvm_float f t G -> (0 < q)%Q ->
  (exec (select (OFma FmaNeg) f f) (args3 t PZero (Num q) PZero) = Some (t, VF PZero) /\
   fma_of G FmaNeg PZero (Num q) PZero = MZero) /\
  (exec (select (OFma FmaSub) f f) (args3 t MZero (Num q) PZero) = Some (t, VF PZero) /\
   fma_of G FmaSub MZero (Num q) PZero = MZero) /\
  (exec (select (OFma FmaSubNeg) f f) (args3 t PZero (Num q) MZero) = Some (t, VF PZero) /\
   fma_of G FmaSubNeg PZero (Num q) MZero = MZero).
Proof.
  intros f t G q F Q. rewrite !(fma_code_run f t G _ _ _ _ F).
  assert (P : Qle_bool 0 q = true) by (apply Qle_bool_iff; lra).
  assert (Z0 : Qeq_bool (0 * q + 0) 0 = true) by (apply Qeq_bool_iff; ring).
  unfold fma_of, plus_opp, f_fma; cbn [f_opp f_neg t_nan t_inf t_pinf t_minf t_zero f_q orb andb xorb f_add].
  rewrite P, Z0. cbn [negb xorb andb f_zero f_opp f_add]. repeat split.
Qed.

(* ---- the mask test, and the vector function built on it *)
Theorem llvm_mask_test_inverted : forall m, List.length m = 4%nat ->
  exec (select OMaskNotAnyZero FBool (FVec 4 FBool)) [(TVec 4 (TInt 1), mask_val m)] =
  Some (TInt 1, bit (negb (existsb (fun b => b) m))).
Proof.
  intros [|a [|b [|c [|d [|]]]]] L; try discriminate. destruct a, b, c, d; reflexivity.
Qed.
Theorem llvm_mask_test_refuted : forall m b, List.length m = 4%nat -> m = repeat b 4 ->
  exists r, exec (select OMaskNotAnyZero FBool (FVec 4 FBool)) [(TVec 4 (TInt 1), mask_val m)] = Some (TInt 1, bit r) /\
    r <> forallb (fun b => b) m.
Proof.
  intros m b L ->. rewrite llvm_mask_test_inverted by auto. eexists. split; [reflexivity|]. destruct b; discriminate.
Qed.
(* the test of the wrapper, as LLVM computes it *)
Definition llvm_full_vector_valid (m : list Z) : option bool :=
  match exec (select OMaskNotAnyZero FBool (FVec 4 FBool)) [(TVec 4 (TInt 1), mask_val (map truth m))] with
  | Some (_, VI z) => Some (negb (z =? 0))
  | _ => None
  end.
Lemma llvm_full_vector_valid_eq : forall m, List.length m = 4%nat ->
  llvm_full_vector_valid m = Some (negb (existsb truth m)).
Proof.
  intros m L. unfold llvm_full_vector_valid. rewrite llvm_mask_test_inverted by (rewrite map_length; auto).
  replace (existsb (fun b => b) (map truth m)) with (existsb truth m)
    by (clear; induction m; cbn; congruence).
  destruct (existsb truth m); reflexivity.
Qed.
Lemma c_lanes_valid : forall m cb r k fuel i, List.length m = k -> (Nat.sub k i < fuel)%nat -> (i <= k)%nat ->
  forallb truth m = true -> c_lanes fuel (Z.of_nat k) cb m r (Z.of_nat i) = Some r.
Proof.
  intros m cb r k. induction fuel as [|fuel IH]; intros i L F I H; [lia|]. cbn [c_lanes].
  destruct (Z.ltb_spec (Z.of_nat i) (Z.of_nat k)) as [C|C]; [|reflexivity].
  rewrite Nat2Z.id. destruct (nth_error m i) as [z|] eqn:E.
  - assert (Tz : truth z = true) by (rewrite forallb_forall in H; apply H; eapply nth_error_In; eauto).
    rewrite Tz. cbn [negb]. replace (Z.of_nat i + 1) with (Z.of_nat (S i)) by lia. apply IH; auto; lia.
  - apply nth_error_None in E. lia.
Qed.
(* as soon as one lane is valid, the function is the expected one all the same *)
Theorem llvm_wrapper_partial : forall r m cb, List.length m = 4%nat -> existsb truth m = true ->
  wrapper_with llvm_full_vector_valid 4 (Some r) (Some m) cb = c_wrapper 4 (Some r) (Some m) cb.
Proof.
  intros r m cb L E. unfold wrapper_with, c_wrapper. rewrite (llvm_full_vector_valid_eq m L), E. cbn [negb].
  destruct (forallb truth m) eqn:A; [|reflexivity].
  apply (c_lanes_valid m cb r 4 5 0 L); auto; lia.
Qed.
(* with no valid lane the unchecked results are returned, whatever the scalar function is *)
Theorem llvm_wrapper_refuted : forall r m cb, List.length m = 4%nat -> existsb truth m = false ->
  wrapper_with llvm_full_vector_valid 4 (Some r) (Some m) cb = Some r.
Proof. intros r m cb L E. unfold wrapper_with. rewrite (llvm_full_vector_valid_eq m L), E. reflexivity. Qed.

(* ---- assigned constants *)
Theorem llvm_constant_partial : forall G c, c <> MZero -> c <> SNaN -> assigned_constant G c = c.
Proof. intros G [q| | | | | |] A B; try contradiction; reflexivity. Qed.
Theorem llvm_constant_zero_refuted : forall G, assigned_constant G MZero = PZero.
Proof. reflexivity. Qed.

(* ---- minimum and maximum, core/legalizer.py 100-125 *)
Definition lt_of (a b : fpv) : bool := fp_holds CLt a b.
Definition gt_of (a b : fpv) : bool := fp_holds CGt a b.
Lemma qcompare_refl : forall q : Q, (q ?= q)%Q = Eq.
Proof. intros q. apply Qeq_alt. reflexivity. Qed.
Lemma qcompare_sym : forall p q : Q, (q ?= p)%Q = CompOpp (p ?= q)%Q.
Proof. intros p q. unfold Qcompare. apply Z.compare_antisym. Qed.
Lemma f_compare_refl : forall a, t_nan a = false -> f_compare a a = Some Eq.
Proof. intros a N. unfold f_compare. rewrite N. destruct a; try discriminate; auto. cbn [orb andb Z.eqb f_q]. rewrite qcompare_refl. auto. Qed.
Lemma f_compare_sym : forall a b, f_compare b a = option_map CompOpp (f_compare a b).
Proof.
  intros a b. unfold f_compare. rewrite (orb_comm (t_nan b)). destruct (t_nan a || t_nan b); [reflexivity|].
  rewrite (andb_comm (match b with MInf => -1 | PInf => 1 | _ => 0 end =? 0)).
  destruct ((match a with MInf => -1 | PInf => 1 | _ => 0 end =? 0) && (match b with MInf => -1 | PInf => 1 | _ => 0 end =? 0)); cbn [option_map].
  - rewrite qcompare_sym. auto.
  - rewrite Z.compare_antisym. auto.
Qed.
Theorem legalized_min_partial : forall a b, t_nan a = false -> t_nan b = false ->
  let m := legalized_minmax lt_of a b in
  (m = a \/ m = b) /\ fp_holds CLe m a = true /\ fp_holds CLe m b = true.
Proof.
  intros a b Na Nb m. subst m. unfold legalized_minmax, lt_of, fp_holds.
  pose proof (f_compare_sym a b) as S. pose proof (f_compare_refl a Na) as Ra. pose proof (f_compare_refl b Nb) as Rb.
  assert (E : exists r, f_compare a b = Some r).
  { unfold f_compare. rewrite Na, Nb. cbn [orb]. destruct (_ && _); eexists; reflexivity. }
  destruct E as [r E]. rewrite E in *. cbn [option_map] in S.
  destruct r; cbn [holds]; rewrite ?S, ?Ra, ?Rb, ?E; cbn [holds CompOpp]; auto.
Qed.
Theorem legalized_max_partial : forall a b, t_nan a = false -> t_nan b = false ->
  let m := legalized_minmax gt_of a b in
  (m = a \/ m = b) /\ fp_holds CGe m a = true /\ fp_holds CGe m b = true.
Proof.
  intros a b Na Nb m. subst m. unfold legalized_minmax, gt_of, fp_holds.
  pose proof (f_compare_sym a b) as S. pose proof (f_compare_refl a Na) as Ra. pose proof (f_compare_refl b Nb) as Rb.
  assert (E : exists r, f_compare a b = Some r).
  { unfold f_compare. rewrite Na, Nb. cbn [orb]. destruct (_ && _); eexists; reflexivity. }
  destruct E as [r E]. rewrite E in *. cbn [option_map] in S.
  destruct r; cbn [holds]; rewrite ?S, ?Ra, ?Rb, ?E; cbn [holds CompOpp]; auto.
Qed.
(* with a NaN the second operand is returned: not symmetric *)
Theorem legalized_min_nan_refuted : forall x, t_nan x = false ->
  legalized_minmax lt_of QNaN x = x /\ legalized_minmax lt_of x QNaN = QNaN /\
  legalized_minmax gt_of QNaN x = x /\ legalized_minmax gt_of x QNaN = QNaN.
Proof. intros x N. unfold legalized_minmax, lt_of, gt_of, fp_holds, f_compare. rewrite N. cbn [t_nan orb]. auto. Qed.

(* ---- examples and assumptions *)
Example llvm_int_ex : word 32 5 /\
  exec (select OSub (FInt 32) (FInt 32)) (one2 (TInt 32) (VI 5) (VI 7)) = Some (TInt 32, VI 4294967294) /\
  exec (select (OComp CLt) FBool (FInt 32)) (one2 (TInt 32) (VI 4294967294) (VI 5)) = Some (TInt 1, VI 1).
Proof. repeat split; auto; lia. Qed.
Example llvm_fp_ex :
  exec (select ONeg FB32 FB32) [(TFloat, VF (Num 3))] = Some (TFloat, VF (Num (-3))) /\
  exec (select (OComp CGe) FBool FB64) (one2 TDouble (VF QNaN) (VF PInf)) = Some (TInt 1, VI 0).
Proof. split; reflexivity. Qed.
Example llvm_vector_entries : exists c d, select ONeg (FVec 4 FB32) (FVec 4 FB32) = Some c /\ select OLNot (FVec 4 FBool) (FVec 4 FBool) = Some d.
Proof. do 2 eexists. split; reflexivity. Qed.
Example llvm_nearest_ex :
  exec (select ONearest (FInt 32) FB32) [(TFloat, VF (Num (27 # 10)))] = Some (TInt 32, VI 2) /\
  exec (select ONearest FB32 FB32) [(TFloat, VF (Num (27 # 10)))] = Some (TFloat, VF (Num 3)).
Proof. split; reflexivity. Qed.
Example llvm_fma_ex : proper (Num 3) /\
  exec (select (OFma FmaNeg) FB32 FB32) (args3 TFloat (Num 3) (Num 5) (Num 1)) = Some (TFloat, VF (fma_of ML_Binary32 FmaNeg (Num 3) (Num 5) (Num 1))) /\
  exists q, fma_of ML_Binary32 FmaNeg (Num 3) (Num 5) (Num 1) = Num q /\ (q == - (16))%Q.
Proof. split; [cbn; lra|]. split; [reflexivity|]. eexists. split; [reflexivity|]. vm_compute. reflexivity. Qed.
Example llvm_wrapper_ex : llvm_full_vector_valid [1; 0; 1; 1] = Some false /\ llvm_full_vector_valid [0; 0; 0; 0] = Some true /\
  wrapper_with llvm_full_vector_valid 4 (Some [10; 20; 30; 40]) (Some [1; 0; 1; 1]) (fun i => Some 7) = Some [10; 7; 30; 40].
Proof. repeat split. Qed.
Example legalized_min_ex : legalized_minmax lt_of (Num 3) MInf = MInf /\ legalized_minmax lt_of PZero MZero = MZero.
Proof. split; reflexivity. Qed.
Print Assumptions llvm_int_arith. Print Assumptions llvm_icmp. Print Assumptions llvm_icmp_ge_refuted. Print Assumptions llvm_fcmp.
Print Assumptions llvm_fcmp_ne_refuted. Print Assumptions llvm_fp_neg_partial. Print Assumptions llvm_fp_neg_zero_refuted.
Print Assumptions llvm_vector_neg_refuted. Print Assumptions llvm_vector_not_refuted. Print Assumptions llvm_bool_ops.
Print Assumptions llvm_vector_fp_add_mul. Print Assumptions llvm_sext. Print Assumptions llvm_nearest_int32_partial.
Print Assumptions llvm_nearest_int32_refuted. Print Assumptions llvm_nearest_int64_refuted. Print Assumptions llvm_nearbyint.
Print Assumptions llvm_vector_nearbyint_refuted. Print Assumptions llvm_fma_partial. Print Assumptions llvm_fma_zero_refuted.
Print Assumptions llvm_mask_test_inverted. Print Assumptions llvm_mask_test_refuted. Print Assumptions llvm_wrapper_partial.
Print Assumptions llvm_wrapper_refuted. Print Assumptions llvm_constant_partial. Print Assumptions llvm_constant_zero_refuted.
Print Assumptions legalized_min_partial. Print Assumptions legalized_max_partial. Print Assumptions legalized_min_nan_refuted.
