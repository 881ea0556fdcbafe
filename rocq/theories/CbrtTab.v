(* The tables of the cubic root in binary32: the computed entries are nearest. *)
From Coq Require Import ZArith QArith Qabs Bool List Lia Reals Qreals Lra.
From Verif Require Import QUtil FpFormatModel FpFormatSpec RoundSpec RoundProofs RoundRne RealUtil ExpProofs CbrtModel CbrtSpec CbrtReal CbrtProofs CbrtAcc.
Import ListNotations.
Open Scope Z_scope.

Definition F32 := fmt_of ML_Binary32.
Definition mants32 : list Z :=
 [8388608; 8432073; 8475095; 8517684; 8559851; 8601607; 8642962; 8683924; 8724504; 8764710; 8804550; 8844033; 8883166; 8921958; 8960415; 8998545;
  9036354; 9073850; 9111038; 9147925; 9184517; 9220820; 9256839; 9292580; 9328049; 9363249; 9398187; 9432867; 9467294; 9501472; 9535406; 9569100;
  9602559; 9635786; 9668786; 9701561; 9734117; 9766457; 9798584; 9830501; 9862212; 9893721; 9925031; 9956144; 9987064; 10017793; 10048336; 10078693;
  10108869; 10138866; 10168687; 10198333; 10227808; 10257114; 10286254; 10315230; 10344043; 10372697; 10401194; 10429535; 10457723; 10485760; 10513648; 10541388].
Definition tab32 : list Q := map (fun m => (m # 8388608)%Q) mants32.
Definition mod32 : list Q := [1 # 2; 10568984 # 16777216; 13316085 # 16777216; 1; 10568984 # 8388608; 13316085 # 8388608]%Q.
Definition third32 : Q := (11184811 # 33554432)%Q.

Lemma F32_eq : F32 = mkF 24 (Some (-149)).
Proof. reflexivity. Qed.

Lemma nearestR_exact : forall F q r, inF F q -> Q2R q = r -> nearestR F q r.
Proof. intros F q r I <-. split; auto. intros f _. rewrite Rminus_diag_eq, Rabs_R0 by reflexivity. apply Rabs_pos. Qed.

Open Scope R_scope.
(* the cube of the root lies between those of the middles *)
Lemma root_near : forall m n v q r, (8388608 < m < 16777216)%Z -> (0 <= n <= 100)%Z -> cube_root v r -> (q == m # (Z.to_pos (2 ^ n)))%Q ->
  IZR ((2 * m - 1) ^ 3) <= v * IZR (2 ^ (3 * (n + 1))) <= IZR ((2 * m + 1) ^ 3) -> nearestR F32 q r.
Proof.
  intros m n v q r Hm Hn [Pr Er] Eq [L H].
  assert (P : (0 < 2 ^ n)%Z) by (apply Z.pow_pos_nonneg; lia).
  assert (Em : (q == inject_Z m * p2 (- n))%Q).
  { rewrite Eq. apply eqR_Qeq. rewrite Q2R_mult, Q2R_Z, p2R_neg by lia. unfold Q2R. cbn [Qnum Qden]. rewrite Z2Pos.id by auto. reflexivity. }
  assert (N : nearestR F32 (inject_Z m * p2 (- n)) r).
  { apply nearestR_intro; rewrite ?F32_eq; cbn [prec exp_ok emin]; try lia.
    replace (- n - 1)%Z with (- (n + 1))%Z by lia. rewrite !p2R_neg by lia. rewrite Z.pow_add_r by lia. change (2 ^ 1)%Z with 2%Z. rewrite mult_IZR.
    set (B := IZR (2 ^ n)) in *. assert (PB : 0 < B) by (apply IZR_lt; exact P).
    replace (IZR (2 ^ (3 * (n + 1)))) with (2 * B * (2 * B) * (2 * B)) in L, H.
    2:{ unfold B. replace (3 * (n + 1))%Z with (n + n + n + 3)%Z by lia. rewrite !Z.pow_add_r by lia. change (2 ^ 3)%Z with 8%Z. rewrite !mult_IZR. ring. }
    rewrite <- Er in L, H.
    replace (r * r * r * (2 * B * (2 * B) * (2 * B))) with ((2 * B * r) * (2 * B * r) * (2 * B * r)) in L, H by ring.
    replace (IZR ((2 * m - 1) ^ 3)) with (IZR (2 * m - 1) * IZR (2 * m - 1) * IZR (2 * m - 1)) in L by (rewrite <- !mult_IZR; f_equal; ring).
    replace (IZR ((2 * m + 1) ^ 3)) with (IZR (2 * m + 1) * IZR (2 * m + 1) * IZR (2 * m + 1)) in H by (rewrite <- !mult_IZR; f_equal; ring).
    assert (P1 : 0 < 2 * B * r) by (apply Rmult_lt_0_compat; lra).
    apply cube_le_inv in L; [|lra]. apply cube_le_inv in H; [|apply IZR_le; lia].
    rewrite minus_IZR, mult_IZR in L. rewrite plus_IZR, mult_IZR in H.
    apply Rmult_le_reg_r with (B * 2); [lra|]. rewrite Rinv_l by lra.
    rewrite <- (Rabs_pos_eq (B * 2)) at 1 by lra. rewrite <- Rabs_mult. apply Rabs_le.
    replace ((IZR m * / B - r) * (B * 2)) with (2 * IZR m - 2 * B * r) by (field; lra). lra. }
  destruct N as [I N]. split; [apply (inF_comp F32 _ _ (Qeq_sym _ _ Em) I)|]. rewrite (Qeq_eqR _ _ Em). exact N.
Qed.

Definition check (i : Z) : bool :=
  let m := nth (Z.to_nat i) mants32 0%Z in
  ((8388608 <? m) && (m <? 16777216) && ((2 * m - 1) ^ 3 * 64 <=? (64 + i) * 2 ^ 72) && ((64 + i) * 2 ^ 72 <=? (2 * m + 1) ^ 3 * 64))%Z.
Lemma check_all : forallb check (map Z.of_nat (seq 1 63)) = true.
Proof. vm_compute. reflexivity. Qed.

Lemma tables32 : cbrt_tables ML_Binary32 tab32 mod32 third32.
Proof.
  assert (I1 : inF F32 1) by (rewrite F32_eq; exists 1%Z, 0%Z; split; [reflexivity|cbn [prec exp_ok emin]; split; vm_compute; discriminate]).
  assert (One : forall r, cube_root 1 r -> r = 1) by (intros r [P E]; apply Rle_antisym; apply cube_le_inv; lra).
  split; [|split].
  - intros i r Hi Cr. destruct (Z.eq_dec i 0) as [->|Ni].
    + replace (1 + 0 / 64) with 1 in Cr by lra. apply One in Cr. subst r. apply nearestR_exact; [|unfold Q2R; cbn; lra].
      apply (inF_comp F32 1); [reflexivity|exact I1].
    + assert (C : check i = true).
      { pose proof (proj1 (forallb_forall check _) check_all i) as C. apply C. apply in_map_iff. exists (Z.to_nat i). split; [lia|]. apply in_seq. lia. }
      unfold check in C. cbv zeta in C. rewrite !andb_true_iff, !Z.ltb_lt, !Z.leb_le in C. destruct C as [[[C1 C2] C3] C4].
      apply (root_near (nth (Z.to_nat i) mants32 0%Z) 23 _ _ _ (conj C1 C2) ltac:(lia) Cr).
      * unfold tab32. rewrite (nth_indep _ 0%Q ((fun m => (m # 8388608)%Q) 0%Z)) by (rewrite map_length; cbn [length mants32]; lia). rewrite (map_nth (fun m => (m # 8388608)%Q)). reflexivity.
      * set (m := nth (Z.to_nat i) mants32 0%Z) in *. change (3 * (23 + 1))%Z with 72%Z.
        apply IZR_le in C3, C4. rewrite !mult_IZR, ?plus_IZR in C3, C4. lra.
  - intros i r Hi Cr. assert (D : (i = 0 \/ i = 1 \/ i = 2 \/ i = 3 \/ i = 4 \/ i = 5)%Z) by lia.
    destruct D as [->|[->|[->|[->|[->| ->]]]]].
    + apply nearestR_exact; [change (inF F32 (nth (Z.to_nat 0) mod32 0%Q)); rewrite F32_eq; exists 1%Z, (-1)%Z; split; [reflexivity|cbn [prec exp_ok emin]; split; vm_compute; discriminate]|].
      destruct Cr as [P E]. replace (Q2R (p2 (0 - 3))) with (/ 2 * / 2 * / 2) in E by (unfold Q2R; cbn; lra).
      replace (Q2R (nth (Z.to_nat 0) mod32 0%Q)) with (/ 2) by (unfold Q2R; cbn; lra). apply Rle_antisym; apply cube_le_inv; lra.
    + apply (root_near 10568984 24 _ _ _ ltac:(lia) ltac:(lia) Cr); [reflexivity|]. replace (Q2R (p2 (1 - 3))) with (/ 4) by (unfold Q2R; cbn; lra).
      change (3 * (24 + 1))%Z with 75%Z. change (2 ^ 75)%Z with (4 * 2 ^ 73)%Z. rewrite mult_IZR. rewrite <- Rmult_assoc, Rinv_l, Rmult_1_l by lra. split; apply IZR_le; vm_compute; discriminate.
    + apply (root_near 13316085 24 _ _ _ ltac:(lia) ltac:(lia) Cr); [reflexivity|]. replace (Q2R (p2 (2 - 3))) with (/ 2) by (unfold Q2R; cbn; lra).
      change (3 * (24 + 1))%Z with 75%Z. change (2 ^ 75)%Z with (2 * 2 ^ 74)%Z. rewrite mult_IZR. rewrite <- Rmult_assoc, Rinv_l, Rmult_1_l by lra. split; apply IZR_le; vm_compute; discriminate.
    + replace (Q2R (p2 (3 - 3))) with 1 in Cr by (unfold Q2R; cbn; lra). apply One in Cr. subst r. apply nearestR_exact; [exact I1|exact Q2R_1].
    + apply (root_near 10568984 23 _ _ _ ltac:(lia) ltac:(lia) Cr); [reflexivity|]. replace (Q2R (p2 (4 - 3))) with 2 by (unfold Q2R; cbn; lra).
      change (3 * (23 + 1))%Z with 72%Z. rewrite <- mult_IZR. split; apply IZR_le; vm_compute; discriminate.
    + apply (root_near 13316085 23 _ _ _ ltac:(lia) ltac:(lia) Cr); [reflexivity|]. replace (Q2R (p2 (5 - 3))) with 4 by (unfold Q2R; cbn; lra).
      change (3 * (23 + 1))%Z with 72%Z. rewrite <- mult_IZR. split; apply IZR_le; vm_compute; discriminate.
  - assert (N : nearestR F32 (inject_Z 11184811 * p2 (-25)) (1 / 3)).
    { apply nearestR_intro; rewrite ?F32_eq; cbn [prec exp_ok emin]; try lia.
      change (-25 - 1)%Z with (- (26))%Z. change (-25)%Z with (- (25))%Z. rewrite !p2R_neg by lia. change (2 ^ 25)%Z with 33554432%Z. change (2 ^ 26)%Z with 67108864%Z. apply Rabs_le. lra. }
    change (nearestR F32 third32 (1 / 3)). destruct N as [I N]. assert (E : (inject_Z 11184811 * p2 (-25) == third32)%Q) by reflexivity.
    split; [apply (inF_comp F32 _ _ E I)|]. rewrite <- (Qeq_eqR _ _ E). exact N.
Qed.

Lemma fmt32 : cbrt_fmt ML_Binary32.
Proof. repeat split; vm_compute; try discriminate; reflexivity. Qed.
