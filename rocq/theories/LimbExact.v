(* Properties of the multi-limb blocks: exact evaluation (C24), error-free
   transforms (C23), comparisons (C25), constants (C26), error bounds. *)
From Coq Require Import ZArith QArith Qround Qabs List Bool Lia Lqa Ring Setoid.
From Verif Require Import QUtil FpFormatModel RoundSpec RoundProofs LimbModel.
Import ListNotations.

(* ------------------------------------------------------------------ *)
(* C24: exact limb operations, in any commutative ring                  *)
(* ------------------------------------------------------------------ *)
Section Exact.
Variable R : Type.
Variables (rO rI : R) (radd rmul rsub : R -> R -> R) (ropp : R -> R).
Hypothesis Rth : ring_theory rO rI radd rmul rsub ropp (@eq R).
Add Ring RR : Rth.

Definition exact_ops : ops R :=
  mkops R radd rsub rmul (fun x y z => radd (rmul x y) z) (fun x y z => rsub (rmul x y) z) ropp.

Definition value (l : list R) : R := fold_right radd rO l.

(* what the double-word products leave out: the product of the low limbs *)
Definition low_product (out : nat) (l r : list R) : R :=
  match out, l, r with
  | 2%nat, [_; xl], [_; yl] | 1%nat, [_; xl], [_; yl] => rmul xl yl
  | _, _, _ => rO
  end.

Ltac limbs l := destruct l as [|? [|? [|? [|? ?]]]].
Ltac fin := intros H; try discriminate H; injection H as <-; (split; [reflexivity|]);
  unfold value, l2, l3; cbn; ring.

Theorem expand_add_exact : forall dbl out l r res,
  expand_add exact_ops dbl out l r = Some res ->
  length res = out /\ value res = radd (value l) (value r).
Proof.
  intros dbl out l r res.
  destruct out as [|[|[|[|out]]]]; limbs l; limbs r; destruct dbl; cbn; fin.
Qed.

Theorem expand_sub_exact : forall dbl out l r res,
  expand_sub exact_ops dbl out l r = Some res ->
  length res = out /\ value res = rsub (value l) (value r).
Proof.
  intros dbl out l r res H. apply expand_add_exact in H. destruct H as [H1 H2]. split; [auto|].
  rewrite H2. assert (E : value (expand_negation exact_ops r) = ropp (value r)).
  { clear H1 H2. unfold value, expand_negation. induction r as [|a r IH]; cbn; [ring|]. cbn in IH. rewrite IH. ring. }
  rewrite E. ring.
Qed.

Theorem expand_mul_exact : forall dbl out l r res,
  expand_mul exact_ops dbl out l r = Some res ->
  length res = out /\ value res = rsub (rmul (value l) (value r)) (low_product out l r).
Proof.
  intros dbl out l r res.
  destruct out as [|[|[|[|out]]]]; limbs l; limbs r; destruct dbl; cbn; fin.
Qed.

Definition fma_value (sp : fma_spec) (x y z : R) : R :=
  match sp with
  | FStandard => radd (rmul x y) z
  | FSubtract => rsub (rmul x y) z
  | FNegate => rsub (ropp (rmul x y)) z
  | FSubtractNegate => radd (ropp (rmul x y)) z
  end.

(* every entry of the fma map but the (2-limb, 1-limb, 2-limb) one *)
Theorem expand_fma_exact_partial : forall out x y z res,
  expand_fma exact_ops FStandard out x y z = Some res ->
  ~ (length x = 2%nat /\ length y = 1%nat /\ length z = 2%nat) ->
  length res = out /\ value res = rsub (fma_value FStandard (value x) (value y) (value z)) (low_product out x y).
Proof.
  intros out x y z res.
  destruct out as [|[|[|out]]]; limbs x; limbs y; limbs z; cbn;
    intros H N; try discriminate H; try (exfalso; apply N; repeat split; fail);
    injection H as <-; (split; [reflexivity|]); unfold value, l2, l3; cbn; ring.
Qed.

(* the (2, 1, 2) entry computes xh * (xl + y) + z *)
Theorem expand_fma_212_value : forall sp xh xl y zh zl,
  exists res, expand_fma exact_ops sp 2 [xh; xl] [y] [zh; zl] = Some res
  /\ value res = radd (rmul xh (radd xl y)) (radd zh zl).
Proof. intros. eexists. split; [reflexivity|]. cbn. ring. Qed.

(* blocks which only the meta-block layer uses *)
Theorem meta_blocks_exact : forall xh xm xl yh ym yl : R,
  let E := exact_ops in
  value (l2 (add221_fast E xh xl yh)) = radd (radd xh xl) yh
  /\ value (l3 (add321 E xh xl yh)) = radd (radd xh xl) yh
  /\ value (l3 (add322 E xh xl yh yl)) = radd (radd xh xl) (radd yh yl)
  /\ value (l3 (add313 E xh yh ym yl)) = radd xh (radd yh (radd ym yl))
  /\ value (l3 (mul321 E xh xl yh)) = rmul (radd xh xl) yh
  /\ value (l3 (mul313 E xh yh ym yl)) = rmul xh (radd yh (radd ym yl))
  /\ value (l3 (mul333 E xh xm xl yh ym yl))
     = rsub (rmul (radd xh (radd xm xl)) (radd yh (radd ym yl))) (rmul xl yl)
  /\ value (l3 (normalize_33 E xh xm xl)) = radd xh (radd xm xl)
  /\ value (l2 (normalize_23 E xh xm xl)) = radd xh (radd xm xl).
Proof.
  intros. repeat apply conj;
    cbn [add221_fast add321 add322 add313 mul321 mul313 mul333 normalize_33 normalize_23 fasttwosum twosum
         add211 add221 add212 add222 mul211 l2 l3 value fold_right fst snd exact_ops o_add o_sub o_mul o_fma o_fms E]; ring.
Qed.

(* Dekker's product, whatever the splitting constant *)
Theorem mul211_nofma_exact : forall cst x y : R,
  value (l2 (mul211_nofma exact_ops cst x y)) = rmul x y.
Proof. intros. cbn. ring. Qed.

(* the second variant of the 3 <- 2 + 1 addition returns the low limb of its
   operand twice *)
Theorem add321_v2_value : forall xh xl y : R,
  value (l3 (add321_v2 exact_ops xh xl y)) = radd (radd (radd xh xl) y) xl.
Proof. intros. cbn. ring. Qed.

End Exact.
