(* Proofs about the legalization of hardware operations. *)
From Coq Require Import ZArith List Bool Arith Lia Znumtheory Zpow_facts.
From Verif Require Import RlgModel RlgSpec.
Import ListNotations.

Local Open Scope Z_scope.
Lemma land_mask : forall x k, 0 <= k -> Z.land x (2 ^ k - 1) = x mod 2 ^ k.
Proof. intros x k Hk. rewrite <- Z.land_ones by exact Hk. f_equal. rewrite Z.ones_equiv. lia. Qed.
Lemma pow_pos : forall k, 0 <= k -> 0 < 2 ^ k.
Proof. intros. apply Z.pow_pos_nonneg; lia. Qed.
Lemma lor_disjoint : forall l r k, 0 <= k -> 0 <= r < 2 ^ k -> Z.lor (l * 2 ^ k) r = l * 2 ^ k + r.
Proof.
  intros l r k Hk Hr. assert (Z.land (l * 2 ^ k) r = 0).
  { apply Z.bits_inj'. intros i Hi. rewrite Z.land_spec, Z.bits_0. destruct (Z_lt_le_dec i k) as [L|L]; [rewrite Z.mul_pow2_bits_low by lia; reflexivity|]. rewrite <- (Z.mod_small r (2 ^ k)) by lia. rewrite Z.mod_pow2_bits_high by lia. apply andb_false_r. }
  rewrite <- Z.lxor_lor by exact H. rewrite <- Z.add_nocarry_lxor by exact H. reflexivity.
Qed.
(* scaling by a positive power loses all fields but 0 *)
Lemma scale_differs : forall x f s, 0 < f -> 0 <= s -> 0 < x < 2 ^ s -> (x * 2 ^ f) mod 2 ^ s <> x.
Proof.
  intros x f s Hf Hs Hx E. assert (D : (2 ^ s | (2 ^ f - 1) * x)).
  { exists ((x * 2 ^ f) / 2 ^ s). pose proof (Z.div_mod (x * 2 ^ f) (2 ^ s)) as DM. pose proof (pow_pos s Hs). rewrite E in DM. specialize (DM ltac:(lia)). nia. }
  assert (RP : rel_prime (2 ^ s) (2 ^ f - 1)).
  { apply rel_prime_sym. apply rel_prime_Zpower_r; [lia|]. apply rel_prime_sym. apply prime_rel_prime; [exact prime_2|]. intros [k Hk]. replace f with (Z.succ (f - 1)) in Hk by lia. rewrite Z.pow_succ_r in Hk by lia. lia. }
  pose proof (Gauss _ _ _ D RP) as G. apply Z.divide_pos_le in G; lia.
Qed.
