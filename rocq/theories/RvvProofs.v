(* Lemmas on the RISC-V vector table. *)
From Coq Require Import ZArith QArith Qabs Qround Bool List String Lia.
From Verif Require Import QUtil FpFormatModel PowModel ExpModel Exp2Model CbrtModel LlvmModel LlvmSpec LlvmProofs RvvModel RvvSpec.
Import ListNotations.
Open Scope string_scope.
Open Scope list_scope.
Open Scope Z_scope.

Lemma same_eq : forall a b, same a b = true -> a = b.
Proof. intros [] []; reflexivity || discriminate. Qed.
Lemma same_refl : forall a, same a a = true.
Proof. intros []; reflexivity. Qed.

Lemma map2_length : forall A B C (f : A -> B -> C) l m, List.length l = List.length m -> List.length (map2 f l m) = List.length l.
Proof. intros A B C f l. induction l as [|x l IH]; intros [|y m] H; cbn in *; try lia; auto. Qed.
Lemma nth_map2 : forall A B C (f : A -> B -> C) l m i d d1 d2, (i < List.length l)%nat -> (i < List.length m)%nat ->
  nth i (map2 f l m) d = f (nth i l d1) (nth i m d2).
Proof.
  intros A B C f l. induction l as [|x l IH]; intros [|y m] i d d1 d2 H1 H2; cbn in H1, H2; try lia.
  destruct i as [|i]; [reflexivity|]. cbn. apply IH; lia.
Qed.
Lemma nth_map1 : forall A B (f : A -> B) l i d d1, (i < List.length l)%nat -> nth i (map f l) d = f (nth i l d1).
Proof. intros A B f l i d d1 H. rewrite (nth_indep _ d (f d1)) by (rewrite map_length; exact H). apply map_nth. Qed.
Lemma nth_repeat' : forall A (v : A) n i d, (i < n)%nat -> nth i (repeat v n) d = v.
Proof. intros A v n. induction n as [|n IH]; intros [|i] d H; cbn; try lia; auto. apply IH. lia. Qed.
Lemma class_nth : forall e l i, Forall (fp_class e) l -> (i < List.length l)%nat -> fp_class e (nth i l (VI 0)).
Proof. intros e l i H Hi. rewrite Forall_forall in H. apply H. apply nth_In. exact Hi. Qed.

(* data: commutations, as Coq values *)
Lemma Qmul_comm' : forall p q, (p * q = q * p)%Q.
Proof. intros [a b] [c d]. unfold Qmult. cbn [Qnum Qden]. rewrite (Z.mul_comm a c), (Pos.mul_comm b d). reflexivity. Qed.
Lemma Qadd_comm' : forall p q, (p + q = q + p)%Q.
Proof. intros [a b] [c d]. unfold Qplus. cbn [Qnum Qden]. rewrite (Z.add_comm (a * _)), (Pos.mul_comm b d). reflexivity. Qed.
Lemma f_mul_comm : forall G a b, f_mul G a b = f_mul G b a.
Proof.
  intros G a b. unfold f_mul. rewrite (xorb_comm (f_neg a)).
  destruct a, b; try reflexivity. rewrite (Qmul_comm' q q0). reflexivity.
Qed.
Lemma f_fma_comm : forall G a b c, f_fma G a b c = f_fma G b a c.
Proof.
  intros G a b c. unfold f_fma. rewrite (xorb_comm (f_neg a)), (orb_comm (t_nan a)), (Qmul_comm' (f_q a)).
  rewrite (orb_comm (t_zero a)), (orb_comm (t_inf a && t_zero b)), (andb_comm (t_inf a)), (andb_comm (t_zero a)), (orb_comm (t_inf a)).
  reflexivity.
Qed.
Lemma f_add_comm : forall G a b, f_add G a b = f_add G b a.
Proof. intros G a b. unfold f_add. destruct a, b; try reflexivity. rewrite (Qadd_comm' q q0). reflexivity. Qed.

(* integers *)
Lemma s_read_range : forall n z, 0 < n -> 0 <= z < 2 ^ n -> - 2 ^ (n - 1) <= s_read n z < 2 ^ (n - 1).
Proof.
  intros n z Hn Hz. unfold s_read. assert (2 ^ n = 2 * 2 ^ (n - 1)) by (rewrite <- Z.pow_succ_r by lia; f_equal; lia).
  destruct (Z.leb_spec (2 ^ (n - 1)) z); lia.
Qed.
Lemma s_read_word : forall n z, 0 < n -> - 2 ^ (n - 1) <= z < 2 ^ (n - 1) -> s_read n (z mod 2 ^ n) = z.
Proof.
  intros n z Hn Hz. unfold s_read. assert (E : 2 ^ n = 2 * 2 ^ (n - 1)) by (rewrite <- Z.pow_succ_r by lia; f_equal; lia).
  destruct (Z.lt_ge_cases z 0) as [N|N].
  - replace (z mod 2 ^ n) with (z + 2 ^ n).
    + destruct (Z.leb_spec (2 ^ (n - 1)) (z + 2 ^ n)); lia.
    + rewrite <- (Z.mod_add z 1 (2 ^ n)) by lia. rewrite Z.mod_small by lia. lia.
  - rewrite Z.mod_small by lia. destruct (Z.leb_spec (2 ^ (n - 1)) z); lia.
Qed.
Lemma esize_pos : forall e, 0 < esize e.
Proof. intros []; reflexivity. Qed.

(* minimum and maximum *)
Lemma f_le_refl : forall a, t_nan a = false -> f_le a a = true.
Proof.
  intros a H. unfold f_le, f_compare. rewrite H. cbn [orb].
  destruct a; cbn [f_q]; try discriminate; try reflexivity.
  cbn -[Qcompare]. rewrite (proj1 (Qeq_alt q q) (Qeq_refl q)). reflexivity.
Qed.
Lemma f_compare_some : forall a b, t_nan a = false -> t_nan b = false -> exists c, f_compare a b = Some c /\ f_compare b a = Some (CompOpp c).
Proof.
  intros a b Ha Hb. unfold f_compare. rewrite Ha, Hb. cbn [orb].
  destruct a, b; try discriminate; cbn -[Qcompare]; eexists; split; try reflexivity; rewrite <- Qcompare_antisym; reflexivity.
Qed.
Lemma vfmin_extremum : forall a b, extremum f_le a b (vfmin a b).
Proof.
  intros a b. unfold extremum, vfmin, quiet. destruct (t_nan a) eqn:Ha; [destruct (t_nan b); reflexivity|].
  destruct (t_nan b) eqn:Hb; [reflexivity|]. destruct (f_compare_some a b Ha Hb) as (c & E1 & E2).
  unfold f_before. rewrite E1.
  assert (L1 : c <> Gt -> f_le a b = true) by (intros N; unfold f_le; rewrite E1; destruct c; congruence).
  assert (L2 : c <> Lt -> f_le b a = true) by (intros N; unfold f_le; rewrite E2; destruct c; cbn; congruence).
  pose proof (f_le_refl a Ha). pose proof (f_le_refl b Hb).
  destruct c; try (repeat split; auto; fail).
  - destruct a, b; repeat split; auto; first [apply L1|apply L2]; discriminate.
  - repeat split; auto. apply L1. discriminate.
  - repeat split; auto. apply L2. discriminate.
Qed.
Lemma vfmax_extremum : forall a b, extremum (fun x y => f_le y x) a b (vfmax a b).
Proof.
  intros a b. unfold extremum, vfmax, quiet. destruct (t_nan a) eqn:Ha; [destruct (t_nan b); reflexivity|].
  destruct (t_nan b) eqn:Hb; [reflexivity|]. destruct (f_compare_some a b Ha Hb) as (c & E1 & E2).
  unfold f_before. rewrite E1.
  assert (L1 : c <> Gt -> f_le a b = true) by (intros N; unfold f_le; rewrite E1; destruct c; congruence).
  assert (L2 : c <> Lt -> f_le b a = true) by (intros N; unfold f_le; rewrite E2; destruct c; cbn; congruence).
  pose proof (f_le_refl a Ha). pose proof (f_le_refl b Hb).
  destruct c.
  - destruct a, b; repeat split; auto; first [apply L1|apply L2]; discriminate.
  - repeat split; auto. apply L1. discriminate.
  - repeat split; auto. apply L2. discriminate.
Qed.
Lemma extremum_sym : forall le a b r, (forall x, t_nan x = false -> le x x = true) -> extremum le a b r -> extremum le b a r.
Proof.
  intros le a b r Hr H. unfold extremum in *. destruct (t_nan a), (t_nan b); try assumption.
  destruct H as ([H|H] & H1 & H2); auto.
Qed.
