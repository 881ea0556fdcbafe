(* Evaluation schemes of polynomials (C20, C21, C22), in any commutative ring. *)
Require Import ZArith List Bool Lia Ring Sorting.Sorted Permutation FinFun.
From Verif Require Import PolyModel.
Import ListNotations.
Open Scope Z_scope.

Section Ring.
  Variable R : Type.
  Variables (rO rI : R) (radd rmul rsub : R -> R -> R) (ropp : R -> R).
  Hypothesis Rth : ring_theory rO rI radd rmul rsub ropp (@eq R).
  Add Ring Rr : Rth.
  Variable ceqb : R -> R -> bool.
  Hypothesis ceqb_eq : forall a b, ceqb a b = true -> a = b.
  Infix "+r" := radd (at level 50, left associativity).
  Infix "*r" := rmul (at level 40, left associativity).

  (* ---- spec: value of a node, powers, value of a polynomial ---- *)
  Fixpoint eval (env : nat -> R) (e : pexp R) : R :=
    match e with
    | EVar n => env n
    | ECst c => c
    | EAdd a b => eval env a +r eval env b
    | ESub a b => rsub (eval env a) (eval env b)
    | EMul a b => eval env a *r eval env b
    end.
  Fixpoint rpow (x : R) (n : nat) : R := match n with O => rI | S k => x *r rpow x k end.
  Definition zpow (x : R) (n : Z) : R := rpow x (Z.to_nat n).
  Definition psum (l : list (Z * R)) (x : R) : R := fold_right (fun ic s => snd ic *r zpow x (fst ic) +r s) rO l.

  Lemma rpow_add : forall x a b, rpow x (a + b) = rpow x a *r rpow x b.
  Proof. intros x a b. induction a; cbn [rpow Nat.add]; [ring|rewrite IHa; ring]. Qed.
  Lemma zpow_add : forall x a b, 0 <= a -> 0 <= b -> zpow x (a + b) = zpow x a *r zpow x b.
  Proof. intros. unfold zpow. rewrite Z2Nat.inj_add by auto. apply rpow_add. Qed.
  Lemma zpow_0 : forall x, zpow x 0 = rI. Proof. reflexivity. Qed.
  Lemma zpow_1 : forall x, zpow x 1 = x. Proof. intros. unfold zpow. change (Z.to_nat 1) with 1%nat. cbn. ring. Qed.

  (* ---- powers ---- *)
  Notation gp := (generate_power R).
  (* a map whose entries are powers of x *)
  Definition mvalid (x : pexp R) (m : pmap R) : Prop :=
    forall n p e, pfind R (n, p) m = Some e -> 1 <= n /\ forall env, eval env e = zpow (eval env x) n.
  Lemma mvalid_nil : forall x, mvalid x [].
  Proof. intros x n p e H. discriminate. Qed.
  Lemma mvalid_cons : forall x m n p e, mvalid x m -> 1 <= n -> (forall env, eval env e = zpow (eval env x) n) ->
    mvalid x (((n, p), e) :: m).
  Proof.
    intros x m n p e V Hn He k q e' H. cbn [pfind fst snd] in H.
    destruct ((k =? n) && Nat.eqb q p) eqn:E.
    - inversion H; subst. apply andb_true_iff in E. destruct E as [E _]. apply Z.eqb_eq in E. subst. auto.
    - eapply V; eauto.
  Qed.
  Lemma power_ok : forall fuel x n p m, mvalid x m -> 1 <= n -> n <= Z.of_nat fuel ->
    exists e m', gp fuel x n p m = Some (e, m') /\ mvalid x m' /\ (forall env, eval env e = zpow (eval env x) n) /\
      Z.of_nat (length m') <= Z.of_nat (length m) + 2 * Z.log2 n + (if Z.even n then 0 else 1).
  Proof.
    induction fuel as [|f IH]; intros x n p m V Hn Hf; [lia|]. cbn [generate_power].
    destruct (pfind R (n, p) m) as [e|] eqn:Ef.
    { exists e, m. split; auto. split; auto. split; [apply (V n p e Ef)|].
      pose proof (Z.log2_nonneg n). destruct (Z.even n); lia. }
    destruct (n =? 1) eqn:E1.
    { apply Z.eqb_eq in E1. subst n. exists x, (((1, p), x) :: m). split; auto. split; [|split].
      - apply mvalid_cons; auto. intros. rewrite zpow_1. auto.
      - intros. rewrite zpow_1. auto.
      - cbn [length]. change (Z.log2 1) with 0. cbn [Z.even]. lia. }
    apply Z.eqb_neq in E1. rewrite (Zmod_odd n). destruct (Z.odd n) eqn:Eo.
    - cbn [Z.eqb]. destruct (IH x (n - 1) p m V) as [e [m' [E [V' [Ev L]]]]]; try lia. rewrite E.
      eexists _, _. split; [reflexivity|].
      assert (Ev' : forall env, eval env (EMul x e) = zpow (eval env x) n).
      { intros env. cbn [eval]. rewrite Ev. replace n with (1 + (n - 1)) at 2 by lia. rewrite zpow_add, zpow_1 by lia. auto. }
      split; [apply mvalid_cons; auto; lia|]. split; auto. cbn [length].
      replace (Z.even n) with false by (rewrite <- Z.negb_odd, Eo; auto).
      replace (Z.even (n - 1)) with true in L by (rewrite Z.even_sub, <- (Z.negb_odd n), Eo; auto).
      pose proof (Z.log2_le_mono (n - 1) n ltac:(lia)). lia.
    - change (0 =? 1) with false. cbn iota.
      assert (Hh : n = 2 * (n / 2)) by (rewrite (Z.div_mod n 2) at 1 by lia; rewrite Zmod_odd, Eo; lia).
      assert (H2 : 1 <= n / 2) by lia.
      destruct (IH x (n / 2) p m V) as [e [m' [E [V' [Ev L]]]]]; try lia. rewrite E.
      eexists _, _. split; [reflexivity|].
      assert (Ev' : forall env, eval env (EMul e e) = zpow (eval env x) n).
      { intros env. cbn [eval]. rewrite Ev, <- zpow_add by lia. f_equal. lia. }
      split; [apply mvalid_cons; auto; lia|]. split; auto. cbn [length].
      replace (Z.even n) with true by (rewrite <- Z.negb_odd, Eo; auto).
      assert (Z.log2 n = Z.log2 (n / 2) + 1).
      { rewrite Hh at 1. rewrite Z.log2_double by lia. lia. }
      destruct (Z.even (n / 2)); lia.
  Qed.

  (* requests served one after the other with the same map *)
  Fixpoint powers (fuel : nat) (x : pexp R) (l : list (Z * nat)) (m : pmap R) : option (pmap R) :=
    match l with
    | [] => Some m
    | (n, p) :: t => match gp fuel x n p m with Some (_, m') => powers fuel x t m' | None => None end
    end.
  Theorem power_correct : forall fuel x hist n p, Forall (fun np => 1 <= fst np <= Z.of_nat fuel) hist ->
    1 <= n <= Z.of_nat fuel ->
    exists m e m', powers fuel x hist [] = Some m /\ gp fuel x n p m = Some (e, m') /\
      forall env, eval env e = zpow (eval env x) n.
  Proof.
    intros fuel x hist n p Hh Hn.
    assert (G : forall l m, Forall (fun np => 1 <= fst np <= Z.of_nat fuel) l -> mvalid x m ->
      exists m', powers fuel x l m = Some m' /\ mvalid x m').
    { induction l as [|[k q] l IH]; intros m Hl V; cbn [powers]; eauto. inversion Hl; subst. cbn in H1.
      destruct (power_ok fuel x k q m V) as [e [m' [E [V' _]]]]; try lia. rewrite E. auto. }
    destruct (G hist [] Hh (mvalid_nil x)) as [m [E V]].
    destruct (power_ok fuel x n p m V) as [e [m' [E' [_ [Ev _]]]]]; try lia. exists m, e, m'. auto.
  Qed.
  (* at most 2 log2 n + 1 nodes are added *)
  Theorem power_cost : forall fuel x n p m, mvalid x m -> 1 <= n -> n <= Z.of_nat fuel ->
    exists e m', gp fuel x n p m = Some (e, m') /\
    Z.of_nat (length m') <= Z.of_nat (length m) + 2 * Z.log2 n + 1.
  Proof.
    intros fuel x n p m V Hn Hf. destruct (power_ok fuel x n p m V Hn Hf) as [e [m' [E [_ [_ L]]]]].
    exists e, m'. split; auto. destruct (Z.even n); lia.
  Qed.
  (* exponents <= 0 recurse for ever *)
  Theorem power_nonpositive_refuted : forall fuel x n p m, n <= 0 -> (forall k q e, pfind R (k, q) m = Some e -> 0 < k) ->
    gp fuel x n p m = None.
  Proof.
    induction fuel as [|f IH]; intros x n p m Hn Hm; cbn [generate_power].
    - destruct (pfind R (n, p) m) eqn:E; auto. apply Hm in E. lia.
    - destruct (pfind R (n, p) m) eqn:E; [apply Hm in E; lia|].
      destruct (n =? 1) eqn:E1; [apply Z.eqb_eq in E1; lia|].
      destruct (n mod 2 =? 1).
      + rewrite IH; auto. lia.
      + rewrite IH; auto. apply Z.div_le_upper_bound; lia.
  Qed.
  (* the map does not know the variable: a map shared by two variables (the
     default argument) returns the powers of the first one *)
  Theorem power_map_shared_refuted : forall fuel x y n p e m, 1 <= n <= Z.of_nat fuel ->
    gp fuel x n p [] = Some (e, m) -> forall fuel', gp fuel' y n p m = Some (e, m) /\
      forall env, eval env e = zpow (eval env x) n.
  Proof.
    intros fuel x y n p e m Hn H fuel'.
    destruct (power_ok fuel x n p [] (mvalid_nil x)) as [e1 [m1 [E [V [Ev _]]]]]; try lia. rewrite H in E. inversion E; subst e1 m1.
    split; auto.
    assert (F : pfind R (n, p) m = Some e).
    { destruct fuel as [|f]; [lia|]. cbn [generate_power pfind] in H.
      assert (K : forall (r : pexp R) (t : pmap R), pfind R (n, p) (((n, p), r) :: t) = Some r).
      { intros. cbn. rewrite Z.eqb_refl, Nat.eqb_refl. auto. }
      destruct (n =? 1); [inversion H; apply K|].
      destruct (n mod 2 =? 1).
      - destruct (gp f x (n - 1) p []) as [[e' m']|]; inversion H. apply K.
      - destruct (gp f x (n / 2) p []) as [[e' m']|]; inversion H. apply K. }
    destruct fuel'; cbn [generate_power]; rewrite F; auto.
  Qed.

  (* ---- Horner ---- *)
  Notation h2 := (horner_scheme2 R rO rI (ropp rI) ceqb).
  Definition esum (env : nat -> R) (l : list (Z * pexp R)) (x : R) : R :=
    psum (map (fun ic => (fst ic, eval env (snd ic))) l) x.
  (* strictly decreasing indices below b, all >= 0 *)
  Fixpoint decr (A : Type) (b : Z) (l : list (Z * A)) : Prop :=
    match l with [] => True | (i, _) :: t => 0 <= i < b /\ decr A i t end.
  Lemma horner_loop_ok : forall fuel x p l ci cs m, mvalid x m -> decr _ ci l -> 0 <= ci <= Z.of_nat fuel ->
    exists ci' cs' m', horner_loop R fuel x p l ci cs m = Some (ci', cs', m') /\ mvalid x m' /\ 0 <= ci' <= ci /\
      ci' = fst (last l (ci, cs)) /\
      forall env, zpow (eval env x) ci' *r eval env cs' = zpow (eval env x) ci *r eval env cs +r esum env l (eval env x).
  Proof.
    intros fuel x p. induction l as [|[i c] t IH]; intros ci cs m V D Hc; cbn [horner_loop].
    - exists ci, cs, m. split; auto. split; auto. split; [lia|]. split; auto. intros env. unfold esum, psum. cbn. ring.
    - destruct D as [Hi Dt].
      destruct (power_ok fuel x (ci - i) p m V) as [d [m1 [E [V1 [Ev _]]]]]; try lia. rewrite E.
      destruct (IH i (EAdd c (EMul d cs)) m1 V1 Dt) as [ci' [cs' [m' [E' [V' [B [L W]]]]]]]; [lia|].
      exists ci', cs', m'. split; auto. split; auto. split; [lia|]. split.
      + rewrite L. destruct t as [|[j cj] t']; [reflexivity|]. f_equal.
        clear. revert j cj. induction t' as [|a t' IHt]; intros; [reflexivity|]. destruct a. cbn. apply IHt.
      + intros env. rewrite W. cbn [eval]. rewrite Ev. unfold esum. cbn [map psum fold_right fst snd].
        fold (psum (map (fun ic => (fst ic, eval env (snd ic))) t) (eval env x)).
        replace (zpow (eval env x) ci) with (zpow (eval env x) i *r zpow (eval env x) (ci - i)) by (rewrite <- zpow_add by lia; f_equal; lia).
        unfold psum at 2. cbn [map fold_right fst snd]. fold (psum (map (fun ic => (fst ic, eval env (snd ic))) t) (eval env x)). ring.
  Qed.
  Lemma decr_removelast : forall A l b d, decr A b l -> l <> [] ->
    decr A b (removelast l) /\ 0 <= fst (last l d) < fst (last (removelast l) (b, snd d)).
  Proof.
    intros A. induction l as [|[i c] t IH]; intros b d D Hn; [congruence|]. destruct D as [Hi Dt].
    destruct t as [|a t]; [cbn; auto|].
    destruct (IH i d Dt) as [H1 H2]; [discriminate|].
    change (removelast ((i, c) :: a :: t)) with ((i, c) :: removelast (a :: t)).
    change (last ((i, c) :: a :: t) d) with (last (a :: t) d). split; [split; auto|].
    destruct (removelast (a :: t)) as [|[j cj] u] eqn:Er.
    - cbn in *. lia.
    - replace (last ((i, c) :: (j, cj) :: u) (b, snd d)) with (last ((j, cj) :: u) (i, snd d)); auto.
      clear. change (last ((i, c) :: (j, cj) :: u) (b, snd d)) with (last ((j, cj) :: u) (b, snd d)).
      revert j cj. induction u as [|v u IHu]; intros; [reflexivity|]. destruct v. apply IHu.
  Qed.
  Lemma psum_app : forall l1 l2 x, psum (l1 ++ l2) x = psum l1 x +r psum l2 x.
  Proof. intros. unfold psum. induction l1 as [|a l1 IH]; cbn; [ring|]. rewrite IH. ring. Qed.

  Theorem horner_correct : forall fuel l x p m b, mvalid x m -> decr _ b l -> b <= Z.of_nat fuel ->
    exists e m', h2 fuel l x p m = Some (e, m') /\ mvalid x m' /\
      forall env, eval env e = esum env l (eval env x).
  Proof.
    intros fuel l x p m b V D Hb. destruct l as [|[i0 e0] t].
    - exists (ECst rO), m. split; auto.
    - destruct D as [Hi Dt]. destruct t as [|a t].
      + cbn [horner_scheme2]. destruct (i0 =? 0) eqn:E0.
        * apply Z.eqb_eq in E0. subst. exists e0, m. split; auto. split; auto. intros env. unfold esum, psum. cbn [map fold_right fst snd].
          rewrite zpow_0. ring.
        * apply Z.eqb_neq in E0. destruct (power_ok fuel x i0 p m V) as [d [m' [E [V' [Ev _]]]]]; try lia. rewrite E.
          exists (EMul d e0), m'. split; auto. split; auto. intros env. cbn [eval]. rewrite Ev. unfold esum, psum. cbn [map fold_right fst snd]. ring.
      + set (t' := a :: t) in *.
        assert (Ht : t' <> []) by (unfold t'; discriminate).
        destruct (decr_removelast _ t' i0 (i0, e0) Dt Ht) as [Dr Hl]. cbn [snd] in Hl.
        destruct (horner_loop_ok fuel x p (removelast t') i0 e0 m V Dr) as [ci [cs [m1 [E1 [V1 [B1 [L1 W1]]]]]]]; [lia|].
        rewrite <- L1 in Hl.
        destruct (last t' (i0, e0)) as [i c] eqn:El. cbn [fst] in Hl.
        assert (Split : forall env, esum env ((i0, e0) :: t') (eval env x) =
          zpow (eval env x) ci *r eval env cs +r eval env c *r zpow (eval env x) i).
        { intros env. rewrite W1.
          assert (ET : t' = removelast t' ++ [(i, c)]) by (rewrite <- El; apply app_removelast_last; auto).
          rewrite ET at 1. unfold esum. change ((i0, e0) :: removelast t' ++ [(i, c)]) with ([(i0, e0)] ++ (removelast t' ++ [(i, c)])).
          rewrite !map_app, !psum_app. unfold psum at 1 3. cbn [map fold_right fst snd]. ring. }
        assert (Unf : h2 fuel ((i0, e0) :: t') x p m =
          if (is_cst_with_value R ceqb c rI || is_cst_with_value R ceqb c (ropp rI)) && (i <=? 1) then
            match gp fuel x ci p m1 with
            | None => None
            | Some (d, m) =>
                let mult := EMul d cs in
                if i =? 0 then Some (EAdd c mult, m)
                else if i =? 1 then
                  if is_cst_with_value R ceqb c rI then Some (EAdd x mult, m) else Some (ESub mult x, m)
                else Some (cs, m)
            end
          else
            match gp fuel x (ci - i) p m1 with
            | None => None
            | Some (d, m) =>
                let cs := EAdd c (EMul d cs) in
                if 0 <? i then match gp fuel x i p m with Some (d', m) => Some (EMul d' cs, m) | None => None end
                else Some (cs, m)
            end).
        { unfold horner_scheme2. unfold t' at 1. fold t'. rewrite E1, El. reflexivity. }
        rewrite Unf. clear Unf.
        destruct ((is_cst_with_value R ceqb c rI || is_cst_with_value R ceqb c (ropp rI)) && (i <=? 1)) eqn:Ec.
        * apply andb_true_iff in Ec. destruct Ec as [Ec Ei]. apply Z.leb_le in Ei.
          destruct (power_ok fuel x ci p m1 V1) as [d [m2 [E2 [V2 [Ev _]]]]]; try lia. rewrite E2. cbv zeta.
          destruct (i =? 0) eqn:Ei0.
          -- apply Z.eqb_eq in Ei0. subst i. eexists _, _. split; [reflexivity|]. split; auto. intros env. rewrite Split. cbn [eval].
             rewrite Ev, zpow_0. ring.
          -- apply Z.eqb_neq in Ei0. assert (i = 1) by lia. subst i. cbn [Z.eqb Pos.eqb].
             destruct (is_cst_with_value R ceqb c rI) eqn:Ec1.
             ++ eexists _, _. split; [reflexivity|]. split; auto. intros env. rewrite Split. cbn [eval]. rewrite Ev, zpow_1.
                destruct c; try discriminate. cbn in Ec1. apply ceqb_eq in Ec1. subst. cbn [eval]. ring.
             ++ eexists _, _. split; [reflexivity|]. split; auto. intros env. rewrite Split. cbn [eval]. rewrite Ev, zpow_1.
                cbn [orb] in Ec. destruct c; try discriminate. cbn in Ec. apply ceqb_eq in Ec. subst. cbn [eval]. ring.
        * destruct (power_ok fuel x (ci - i) p m1 V1) as [d [m2 [E2 [V2 [Ev _]]]]]; try lia. rewrite E2. cbv zeta.
          assert (Val : forall env, zpow (eval env x) i *r eval env (EAdd c (EMul d cs)) = esum env ((i0, e0) :: t') (eval env x)).
          { intros env. rewrite Split. cbn [eval]. rewrite Ev.
            replace (zpow (eval env x) ci) with (zpow (eval env x) i *r zpow (eval env x) (ci - i)) by (rewrite <- zpow_add by lia; f_equal; lia). ring. }
          destruct (0 <? i) eqn:Ei.
          -- apply Z.ltb_lt in Ei. destruct (power_ok fuel x i p m2 V2) as [d' [m3 [E3 [V3 [Ev' _]]]]]; try lia. rewrite E3.
             eexists _, _. split; [reflexivity|]. split; auto. intros env. rewrite <- Val. cbn [eval]. rewrite Ev'. reflexivity.
          -- apply Z.ltb_ge in Ei. assert (i = 0) by lia. subst i. eexists _, _. split; [reflexivity|]. split; auto.
             intros env. rewrite <- Val, zpow_0. ring.
  Qed.

  (* from a Polynomial: the sort of the coefficients *)
  Lemma insert_perm : forall a l, Permutation (a :: l) (insert_coeff R a l).
  Proof.
    intros a. induction l as [|b l IH]; cbn; auto. destruct (fst a <=? fst b); auto.
    rewrite perm_swap. constructor. auto.
  Qed.
  Lemma psum_perm : forall l l' x, Permutation l l' -> psum l x = psum l' x.
  Proof.
    intros l l' x H. unfold psum. induction H; cbn; auto.
    - rewrite IHPermutation. auto.
    - ring.
    - congruence.
  Qed.
  Lemma ordered_perm : forall P, Permutation (coeffs R P) (ordered_coeff_list R P).
  Proof.
    intros P. unfold ordered_coeff_list. induction (coeffs R P) as [|a l IH]; cbn; auto.
    rewrite <- insert_perm. constructor. auto.
  Qed.
  (* strictly increasing indices above b *)
  Fixpoint incr (b : Z) (l : list (Z * R)) : Prop := match l with [] => True | (i, _) :: t => b < i /\ incr i t end.
  Lemma insert_incr : forall a l b, incr b l -> b < fst a -> ~ In (fst a) (map fst l) -> incr b (insert_coeff R a l).
  Proof.
    intros [i c]. induction l as [|[j d] l IH]; intros b H Hb Hn; cbn; auto.
    cbn in H, Hb, Hn. destruct H as [H1 H2]. destruct (i <=? j) eqn:E; cbn.
    - apply Z.leb_le in E. split; auto. split; auto. assert (i <> j) by (intros ->; apply Hn; auto). lia.
    - apply Z.leb_gt in E. split; auto.
  Qed.
  Lemma ordered_incr : forall P, NoDup (map fst (coeffs R P)) -> Forall (fun ic => 0 <= fst ic) (coeffs R P) ->
    incr (-1) (ordered_coeff_list R P).
  Proof.
    intros P. unfold ordered_coeff_list. induction (coeffs R P) as [|a l IH]; cbn; auto. intros ND F.
    inversion ND; inversion F; subst. apply insert_incr; auto; [lia|].
    intros H. apply H1. eapply Permutation_in; [|exact H]. apply Permutation_map. symmetry.
    clear. induction l as [|b l IH]; cbn; auto. rewrite <- insert_perm. constructor. auto.
  Qed.
  Lemma decr_rev : forall l b, incr b l -> -1 <= b -> forall l0 : list (Z * R), decr R (b + 1) l0 \/ l0 = [] ->
    decr R (1 + fold_right (fun ic d => Z.max d (fst ic)) b l) (rev l ++ l0).
  Proof.
    induction l as [|[i c] l IH]; intros b H Hb l0 H0.
    - cbn [rev fold_right app]. replace (1 + b) with (b + 1) by lia. destruct H0 as [H0| ->]; [auto|exact I].
    - cbn [rev fold_right fst]. cbn in H. destruct H as [H1 H2]. rewrite <- app_assoc. cbn [app].
      assert (M : fold_right (fun ic d => Z.max d (fst ic)) i l = Z.max (fold_right (fun ic d => Z.max d (fst ic)) b l) i).
      { clear -H1. induction l as [|a l IH]; cbn; lia. }
      rewrite <- M. apply IH; auto; [lia|]. left. cbn. split; [lia|].
      destruct H0 as [H0| ->]; [|exact I].
      destruct l0 as [|[j d] l0]; cbn in *; auto. split; [lia|tauto].
  Qed.
  Theorem horner_poly_correct : forall fuel P x p m, mvalid x m -> NoDup (map fst (coeffs R P)) ->
    Forall (fun ic => 0 <= fst ic < Z.of_nat fuel) (coeffs R P) ->
    exists e m', horner_scheme R rO rI (ropp rI) ceqb fuel P x p m = Some (e, m') /\ mvalid x m' /\
      forall env, eval env e = psum (coeffs R P) (eval env x).
  Proof.
    intros fuel P x p m V ND F.
    assert (I : incr (-1) (ordered_coeff_list R P)).
    { apply ordered_incr; auto. eapply Forall_impl; [|exact F]. cbn. intros; lia. }
    pose proof (decr_rev _ _ I ltac:(lia) [] (or_intror eq_refl)) as D. rewrite app_nil_r in D.
    assert (B : 1 + fold_right (fun ic d => Z.max d (fst ic)) (-1) (ordered_coeff_list R P) <= Z.of_nat fuel).
    { assert (F' : Forall (fun ic => fst ic < Z.of_nat fuel) (ordered_coeff_list R P)).
      { apply Forall_forall. intros y Hy. eapply Permutation_in in Hy; [|symmetry; apply ordered_perm].
        rewrite Forall_forall in F. apply F in Hy. lia. }
      clear -F'. induction F'; cbn [fold_right]; lia. }
    unfold horner_scheme.
    assert (D' : forall (l : list (Z * R)) b, decr R b l -> decr (pexp R) b (map (fun ic => (fst ic, ECst (snd ic))) l)).
    { clear. induction l as [|[i c] l IH]; cbn; auto. intros b [? ?]. auto. }
    destruct (horner_correct fuel (map (fun ic => (fst ic, ECst (snd ic))) (rev (ordered_coeff_list R P))) x p m _ V (D' _ _ D) B) as [e [m' [E [V' Ev]]]].
    exists e, m'. split; auto. split; auto. intros env. rewrite Ev. unfold esum. rewrite map_map. cbn [fst snd eval].
    rewrite (map_ext (fun ic : Z * R => (fst ic, snd ic)) (fun ic => ic)) by (intros []; auto). rewrite map_id.
    apply psum_perm. rewrite <- Permutation_rev. symmetry. apply ordered_perm.
  Qed.

  (* ---- Estrin ---- *)
  Notation es := (estrin_scheme R).
  Lemma fold_max_spec : forall (l : list (Z * R)) d,
    let r := fold_left (fun d ic => if fst ic <=? d then d else fst ic) l d in
    d <= r /\ (forall ic, In ic l -> fst ic <= r) /\ (r = d \/ exists ic, In ic l /\ fst ic = r).
  Proof.
    induction l as [|a l IH]; intros d; cbn; [split; [lia|]; split; [intros ? []|auto]|].
    specialize (IH (if fst a <=? d then d else fst a)). cbn in IH. destruct IH as [A [B C]].
    destruct (fst a <=? d) eqn:E; [apply Z.leb_le in E|apply Z.leb_gt in E].
    - split; auto. split; [intros ic [<-|H]; auto; lia|]. destruct C as [C|[ic [C D]]]; eauto.
    - split; [lia|]. split; [intros ic [<-|H]; auto|]. right. destruct C as [C|[ic [C D]]]; [exists a; auto|exists ic; auto].
  Qed.
  Lemma fold_min_spec : forall (l : list (Z * R)) d,
    let r := fold_left (fun d ic => Z.min d (fst ic)) l d in
    r <= d /\ (forall ic, In ic l -> r <= fst ic) /\ (r = d \/ exists ic, In ic l /\ fst ic = r).
  Proof.
    induction l as [|a l IH]; intros d; cbn; [split; [lia|]; split; [intros ? []|auto]|].
    specialize (IH (Z.min d (fst a))). cbn in IH. destruct IH as [A [B C]].
    split; [lia|]. split; [intros ic [<-|H]; auto; lia|].
    destruct C as [C|[ic [C D]]]; [|right; exists ic; auto].
    rewrite C. destruct (Z.min_spec d (fst a)) as [[? E]|[? E]]; rewrite E; [left; auto|right; exists a; auto].
  Qed.

  Lemma psum_split : forall (l : list (Z * R)) x k off hi, 0 <= off <= k + 1 ->
    Forall (fun ic => 0 <= fst ic <= hi) l ->
    psum l x = psum (map (fun ic => (fst ic - 0, snd ic)) (filter (fun ic => (0 <=? fst ic) && (fst ic <=? k)) l)) x
      +r zpow x off *r psum (map (fun ic => (fst ic - off, snd ic)) (filter (fun ic => (k + 1 <=? fst ic) && (fst ic <=? hi)) l)) x.
  Proof.
    intros l x k off hi Ho F. induction F as [|[i c] l [H0 H1] F IH]; [unfold psum; cbn; ring|]. cbn [fst] in *.
    unfold psum at 1. cbn [fold_right fst snd]. fold (psum l x). rewrite IH. cbn [filter fst].
    replace (0 <=? i) with true by (symmetry; apply Z.leb_le; lia).
    replace (i <=? hi) with true by (symmetry; apply Z.leb_le; lia). cbn [andb].
    destruct (i <=? k) eqn:Ek.
    - apply Z.leb_le in Ek. replace (k + 1 <=? i) with false by (symmetry; apply Z.leb_gt; lia). cbn [andb map].
      unfold psum at 3. cbn [fold_right fst snd]. fold (psum (map (fun ic => (fst ic - 0, snd ic)) (filter (fun ic => (0 <=? fst ic) && (fst ic <=? k)) l)) x).
      replace (i - 0) with i by lia. ring.
    - apply Z.leb_gt in Ek. replace (k + 1 <=? i) with true by (symmetry; apply Z.leb_le; lia). cbn [andb map].
      unfold psum at 4. cbn [fold_right fst snd]. fold (psum (map (fun ic => (fst ic - off, snd ic)) (filter (fun ic => (k + 1 <=? fst ic) && (fst ic <=? hi)) l)) x).
      replace (zpow x i) with (zpow x off *r zpow x (i - off)) by (rewrite <- zpow_add by lia; f_equal; lia). ring.
  Qed.
  Lemma NoDup_sub : forall (l : list (Z * R)) f off, NoDup (map fst l) ->
    NoDup (map fst (map (fun ic => (fst ic - off, snd ic)) (filter f l))).
  Proof.
    induction l as [|a l IH]; intros f off H; cbn; [constructor|]. inversion H; subst.
    destruct (f a); cbn; auto. constructor; auto. rewrite map_map. cbn. intros Hi. apply in_map_iff in Hi.
    destruct Hi as [b [E Hb]]. apply filter_In in Hb. apply H2. apply in_map_iff. exists b. split; [lia|tauto].
  Qed.

  Lemma dict_wf : forall L : list (Z * R), L <> [] -> NoDup (map fst L) -> Forall (fun ic => 0 <= fst ic) L ->
    exists mn mx, (forall ic, In ic L -> mn <= fst ic <= mx) /\ In mn (map fst L) /\ In mx (map fst L) /\ 0 <= mn /\
      degree R (of_dict R L) = mx /\ (length L = 1%nat \/ (mx - mn + 2) / 2 + mn - 1 < mx).
  Proof.
    intros L Hn ND F. rewrite Forall_forall in F. destruct L as [|a t]; [congruence|].
    pose proof (fold_min_spec t (fst a)) as S. cbn in S. destruct S as [S1 [S2 S3]].
    set (mn := fold_left (fun d ic => Z.min d (fst ic)) t (fst a)) in *.
    pose proof (fold_max_spec (a :: t) 0) as M. cbv zeta in M. destruct M as [M1 [M2 M3]].
    change (fold_left (fun d ic => if fst ic <=? d then d else fst ic) (a :: t) 0) with (degree R (of_dict R (a :: t))) in *.
    set (mx := degree R (of_dict R (a :: t))) in *.
    assert (Imn : In mn (map fst (a :: t))).
    { destruct S3 as [->|[ic [S3 <-]]]; [left; auto|right; apply in_map; auto]. }
    assert (Imx : In mx (map fst (a :: t))).
    { destruct M3 as [M3|[ic [M3 <-]]]; [|apply in_map; auto].
      assert (fst a = mx); [|left; auto]. pose proof (F a (or_introl eq_refl)). pose proof (M2 a (or_introl eq_refl)). lia. }
    assert (Bd : forall ic, In ic (a :: t) -> mn <= fst ic <= mx).
    { intros ic H. split; auto. destruct H as [<-|H]; auto. }
    exists mn, mx. split; auto. split; auto. split; auto. split.
    { apply in_map_iff in Imn. destruct Imn as [ic [<- H]]. auto. }
    split; auto. destruct t as [|b t]; [left; auto|right].
    assert (fst a <> fst b). { inversion ND; subst. cbn in H1. intros E. apply H1. rewrite E. left; auto. }
    pose proof (Bd a (or_introl eq_refl)). pose proof (Bd b (or_intror (or_introl eq_refl))).
    assert (mn < mx) by lia. pose proof (Z.div_mod (mx - mn + 2) 2 ltac:(lia)). pose proof (Z.mod_pos_bound (mx - mn + 2) 2 ltac:(lia)). lia.
  Qed.

  Lemma estrin_ok : forall pf fuel P x p m mn mx, mvalid x m -> NoDup (map fst (coeffs R P)) ->
    (forall ic, In ic (coeffs R P) -> mn <= fst ic <= mx) ->
    In mn (map fst (coeffs R P)) -> In mx (map fst (coeffs R P)) -> 0 <= mn -> mx <= degree R P ->
    (length (coeffs R P) = 1%nat \/ (degree R P - mn + 2) / 2 + mn - 1 < mx) ->
    degree R P - mn < Z.of_nat fuel -> degree R P <= Z.of_nat pf ->
    exists e m', es pf fuel P x p m = EOk e m' /\ mvalid x m' /\ forall env, eval env e = psum (coeffs R P) (eval env x).
  Proof.
    intros pf. induction fuel as [|f IH]; intros P x p m mn mx V ND B Hmn Hmx H0 Hd Hs Hf Hp.
    { exfalso. apply in_map_iff in Hmx. destruct Hmx as [ic [E Hic]]. apply B in Hic. lia. }
    assert (Cases : (exists i c, coeffs R P = [(i, c)]) \/
      (length (coeffs R P) <> 1%nat /\ es pf (S f) P x p m =
        let pd := (degree R P - mn + 2) / 2 + mn - 1 in
        let off := pd + 1 - mn in
        match es pf f (sub_poly R P 0 pd 0) x p m with
        | EOk lo m =>
            match es pf f (sub_poly R P (pd + 1) (degree R P) off) x p m with
            | EOk hi m =>
                match gp pf x off p m with
                | Some (d, m) => EOk (EAdd lo (EMul d hi)) m
                | None => EFuel
                end
            | r => r
            end
        | r => r
        end)).
    { assert (Mn : min_degree R P = Some mn).
      { unfold min_degree. destruct (coeffs R P) as [|a t] eqn:E; [contradiction|].
        f_equal. pose proof (fold_min_spec t (fst a)) as S. cbn in S. destruct S as [S1 [S2 S3]].
        set (r := fold_left (fun d ic => Z.min d (fst ic)) t (fst a)) in *.
        assert (mn <= r). { destruct S3 as [->|[ic [S3 <-]]]; [apply B; left; auto|apply B; right; auto]. }
        assert (r <= mn); [|lia]. apply in_map_iff in Hmn. destruct Hmn as [ic [<- [<-|Hic]]]; auto. }
      cbn [estrin_scheme]. rewrite Mn. destruct (coeffs R P) as [|[i c] [|b t]] eqn:E.
      - contradiction.
      - left; eauto.
      - right. split; [cbn; lia|reflexivity]. }
    destruct Cases as [[i [c E]]|[Hl E]].
    - cbn [estrin_scheme]. rewrite E in *. cbn in Hmn, Hmx. destruct Hmn as [Hmn|[]]. destruct Hmx as [Hmx|[]]. subst mn.
      destruct (i =? 0) eqn:Ei.
      + apply Z.eqb_eq in Ei. subst. exists (ECst c), m. split; auto. split; auto. intros env. unfold psum. cbn [fold_right fst snd eval].
        rewrite zpow_0. ring.
      + apply Z.eqb_neq in Ei. destruct (power_ok pf x i p m V) as [d [m' [E' [V' [Ev _]]]]]; try lia. rewrite E'.
        exists (EMul (ECst c) d), m'. split; auto. split; auto. intros env. unfold psum. cbn [fold_right fst snd eval]. rewrite Ev. ring.
    - destruct Hs as [Hs|Hs]; [congruence|]. rewrite E. clear E. cbv zeta.
      set (dg := degree R P) in *.
      set (pd := (dg - mn + 2) / 2 + mn - 1) in *.
      assert (Hpd : mn <= pd /\ 2 * (pd + 1 - mn) <= dg - mn + 2 <= 2 * (pd + 1 - mn) + 1).
      { unfold pd. pose proof (Z.div_mod (dg - mn + 2) 2 ltac:(lia)). pose proof (Z.mod_pos_bound (dg - mn + 2) 2 ltac:(lia)).
        apply in_map_iff in Hmn. destruct Hmn as [ic [<- Hic]]. apply B in Hic. lia. }
      set (off := pd + 1 - mn) in *.
      (* the low part *)
      assert (SUB : forall st sp o, 0 <= o <= st -> st <= sp -> (exists ic, In ic (coeffs R P) /\ st <= fst ic <= sp) -> sp <= dg ->
         sp - o - (Z.max st mn - o) < Z.of_nat f ->
         forall m, mvalid x m -> exists e m', es pf f (sub_poly R P st sp o) x p m = EOk e m' /\ mvalid x m' /\
           forall env, eval env e = psum (map (fun ic => (fst ic - o, snd ic)) (filter (fun ic => (st <=? fst ic) && (fst ic <=? sp)) (coeffs R P))) (eval env x)).
      { intros st sp o Ho Hst [ic [Hic1 Hic2]] Hsp Hfu m1 V1.
        set (L := map (fun ic => (fst ic - o, snd ic)) (filter (fun ic => (st <=? fst ic) && (fst ic <=? sp)) (coeffs R P))).
        assert (InL : forall y, In y L -> exists z, In z (coeffs R P) /\ st <= fst z <= sp /\ fst y = fst z - o).
        { intros y Hy. unfold L in Hy. apply in_map_iff in Hy. destruct Hy as [z [<- Hz]]. apply filter_In in Hz.
          destruct Hz as [Hz1 Hz2]. apply andb_true_iff in Hz2. rewrite !Z.leb_le in Hz2. exists z. auto. }
        assert (NE : L <> []).
        { assert (In (fst ic - o, snd ic) L); [|intros E0; rewrite E0 in H; contradiction]. unfold L. apply in_map_iff.
          exists ic. split; auto. apply filter_In. split; auto. apply andb_true_iff. rewrite !Z.leb_le. auto. }
        destruct (dict_wf L NE) as [mn' [mx' [B' [I1 [I2 [P0 [Dg Sh]]]]]]].
        - apply NoDup_sub; auto.
        - apply Forall_forall. intros y Hy. apply InL in Hy. destruct Hy as [z [_ [? ->]]]. lia.
        - assert (Bmn : Z.max st mn - o <= mn').
          { apply in_map_iff in I1. destruct I1 as [y [<- Hy]]. apply InL in Hy. destruct Hy as [z [Hz [? ->]]]. apply B in Hz. lia. }
          assert (Bmx : mx' <= sp - o).
          { apply in_map_iff in I2. destruct I2 as [y [<- Hy]]. apply InL in Hy. destruct Hy as [z [Hz [? ->]]]. lia. }
          change (sub_poly R P st sp o) with (of_dict R L).
          destruct (IH (of_dict R L) x p m1 mn' mx' V1) as [e [m' [E' [V' Ev]]]]; auto; cbn [coeffs of_dict].
          + apply NoDup_sub; auto.
          + lia.
          + rewrite Dg. auto.
          + lia.
          + lia.
          + exists e, m'. auto. }
      destruct (SUB 0 pd 0) with (m := m) as [lo [m1 [E1 [V1 Ev1]]]]; auto; try lia.
      { apply in_map_iff in Hmn. destruct Hmn as [ic [E Hic]]. exists ic. split; auto. lia. }
      rewrite E1.
      destruct (SUB (pd + 1) dg off) with (m := m1) as [hi [m2 [E2 [V2 Ev2]]]]; auto; try lia.
      { apply in_map_iff in Hmx. destruct Hmx as [ic [E Hic]]. exists ic. split; auto. lia. }
      rewrite E2.
      destruct (power_ok pf x off p m2 V2) as [d [m3 [E3 [V3 [Ev3 _]]]]]; try lia. rewrite E3.
      eexists _, _. split; [reflexivity|]. split; auto. intros env. cbn [eval]. rewrite Ev1, Ev2, Ev3. symmetry. apply psum_split; [lia|].
      apply Forall_forall. intros ic Hic. apply B in Hic. lia.
  Qed.

  (* from a dictionary (or a Sollya polynomial): always ends, right value *)
  Theorem estrin_correct : forall pf fuel L x p m, mvalid x m -> L <> [] -> NoDup (map fst L) ->
    Forall (fun ic => 0 <= fst ic < Z.of_nat fuel) L -> Z.of_nat fuel <= Z.of_nat pf ->
    exists e m', es pf fuel (of_dict R L) x p m = EOk e m' /\ mvalid x m' /\ forall env, eval env e = psum L (eval env x).
  Proof.
    intros pf fuel L x p m V Hn ND F Hp.
    destruct (dict_wf L Hn ND) as [mn [mx [B [I1 [I2 [P0 [Dg Sh]]]]]]].
    { eapply Forall_impl; [|exact F]. cbn; intros; lia. }
    assert (mx < Z.of_nat fuel). { apply in_map_iff in I2. destruct I2 as [ic [<- H]]. rewrite Forall_forall in F. apply F in H. lia. }
    apply (estrin_ok pf fuel (of_dict R L) x p m mn mx); auto; rewrite ?Dg; try lia. auto.
  Qed.
  Lemma enumerate_fst : forall l, map fst (enumerate R l) = map Z.of_nat (seq 0 (length l)).
  Proof.
    intros l. unfold enumerate. assert (G : forall (a : list Z) (b : list R), length a = length b -> map fst (combine a b) = a).
    { induction a as [|u a IH]; intros [|v b] E; cbn in *; auto; try discriminate. f_equal. auto. }
    apply G. rewrite map_length, seq_length. auto.
  Qed.
  (* from a list: the degree attribute is one too large; right for every length but two *)
  Theorem estrin_list_correct : forall pf fuel l x p m, mvalid x m -> l <> [] -> length l <> 2%nat ->
    (length l < fuel)%nat -> (fuel <= pf)%nat ->
    exists e m', es pf fuel (of_list R l) x p m = EOk e m' /\ mvalid x m' /\
      forall env, eval env e = psum (enumerate R l) (eval env x).
  Proof.
    intros pf fuel l x p m V Hn H2 Hf Hp.
    assert (Len : (1 <= length l)%nat) by (destruct l; [congruence|cbn; lia]).
    assert (InE : forall i, In i (map fst (enumerate R l)) <-> 0 <= i < Z.of_nat (length l)).
    { intros i. rewrite enumerate_fst, in_map_iff. split.
      - intros [k [<- H]]. apply in_seq in H. lia.
      - intros H. exists (Z.to_nat i). split; [lia|]. apply in_seq. lia. }
    assert (LE : length (enumerate R l) = length l).
    { rewrite <- (map_length fst), enumerate_fst, map_length, seq_length. auto. }
    apply (estrin_ok pf fuel (of_list R l) x p m 0 (Z.of_nat (length l) - 1)); cbn [coeffs degree of_list]; auto.
    - rewrite enumerate_fst. apply FinFun.Injective_map_NoDup; [intros a b; apply Nat2Z.inj|apply seq_NoDup].
    - intros ic H. apply (in_map fst) in H. apply InE in H. lia.
    - apply InE. lia.
    - apply InE. lia.
    - lia.
    - lia.
    - rewrite LE. destruct (Nat.eq_dec (length l) 1); [left; auto|right].
      pose proof (Z.div_mod (Z.of_nat (length l) - 0 + 2) 2 ltac:(lia)). pose proof (Z.mod_pos_bound (Z.of_nat (length l) - 0 + 2) 2 ltac:(lia)). lia.
    - lia.
    - lia.
  Qed.
  Theorem estrin_two_coefficients_refuted : forall pf fuel a b x p m,
    es (S pf) (S (S (S fuel))) (of_list R [a; b]) x p m = EError.
  Proof.
    intros. cbn [estrin_scheme of_list coeffs enumerate length seq map combine min_degree fold_left degree fst].
    change (Z.of_nat 0) with 0. change (Z.of_nat 1) with 1. change (Z.of_nat 2) with 2.
    change (Z.min 0 1) with 0. change ((2 - 0 + 2) / 2 + 0 - 1) with 1. change (1 + 1 - 0) with 2. change (1 + 1) with 2.
    unfold sub_poly. cbn [coeffs of_list enumerate length seq map combine filter fst snd].
    change (Z.of_nat 0) with 0. change (Z.of_nat 1) with 1. cbn [Z.leb Z.compare Pos.compare Pos.compare_cont andb map fst snd].
    unfold of_dict. cbn [map fold_left fst snd coeffs degree].
    change (0 - 0) with 0. change (1 - 0) with 1. cbn [Z.leb Z.compare].
    cbn [min_degree coeffs fold_left fst]. change (Z.min 0 1) with 0. change ((1 - 0 + 2) / 2 + 0 - 1) with 0. change (0 + 1 - 0) with 1. change (0 + 1) with 1.
    cbn [filter fst snd]. cbn [Z.leb Z.compare Pos.compare Pos.compare_cont andb map fst snd fold_left coeffs degree].
    change (0 - 0) with 0. change (1 - 1) with 0. cbn [Z.eqb].
    cbn [generate_power]. change (1 =? 1) with true. cbn iota.
    destruct (pfind R (1, p) m); reflexivity.
  Qed.
  Theorem estrin_empty_refuted : forall pf fuel x p m, es pf (S fuel) (of_dict R []) x p m = EError.
  Proof. reflexivity. Qed.
End Ring.

(* ---- examples: integers ---- *)
Definition zenv (n : nat) : Z := 3.
Example power_example : exists e m, generate_power Z 20 (EVar 0) 11 0 [] = Some (e, m) /\ length m = 6%nat /\
  eval Z Z.add Z.mul Z.sub zenv e = 3 ^ 11.
Proof. eexists _, _. split; [reflexivity|]. split; reflexivity. Qed.
(* 5 x^7 - 2 x^4 - x *)
Example horner_example : exists e m,
  horner_scheme Z 0 1 (-1) Z.eqb 20 (of_dict Z [(4, -2); (1, -1); (7, 5)]) (EVar 0) 0 [] = Some (e, m) /\
  eval Z Z.add Z.mul Z.sub zenv e = 5 * 3 ^ 7 - 2 * 3 ^ 4 - 3.
Proof. eexists _, _. split; [reflexivity|]. reflexivity. Qed.
Example estrin_example : exists e m,
  estrin_scheme Z 20 20 (of_dict Z [(4, -2); (1, -1); (7, 5)]) (EVar 0) 0 [] = EOk e m /\
  eval Z Z.add Z.mul Z.sub zenv e = 5 * 3 ^ 7 - 2 * 3 ^ 4 - 3.
Proof. eexists _, _. split; [reflexivity|]. reflexivity. Qed.
Example estrin_list_example : exists e m,
  estrin_scheme Z 20 20 (of_list Z [1; 2; 3; 4]) (EVar 0) 0 [] = EOk e m /\
  eval Z Z.add Z.mul Z.sub zenv e = 1 + 2 * 3 + 3 * 3 ^ 2 + 4 * 3 ^ 3.
Proof. eexists _, _. split; [reflexivity|]. reflexivity. Qed.
Example power_map_shared_example : exists e m, generate_power Z 20 (EVar 0) 2 0 [] = Some (e, m) /\
  generate_power Z 20 (EVar 1) 2 0 m = Some (EMul (EVar 0) (EVar 0), m).
Proof. eexists _, _. split; reflexivity. Qed.
Example power_zero_example : generate_power Z 1000 (EVar 0) 0 0 [] = None.
Proof. reflexivity. Qed.
(* the ring hypotheses hold for the integers *)
Example integers_are_a_ring : ring_theory 0 1 Z.add Z.mul Z.sub Z.opp (@eq Z) /\ (forall a b, (a =? b) = true -> a = b).
Proof. split; [exact Zth|apply Z.eqb_eq]. Qed.

Print Assumptions power_correct.
Print Assumptions power_cost.
Print Assumptions power_nonpositive_refuted.
Print Assumptions power_map_shared_refuted.
Print Assumptions horner_correct.
Print Assumptions horner_poly_correct.
Print Assumptions estrin_correct.
Print Assumptions estrin_list_correct.
Print Assumptions estrin_two_coefficients_refuted.
Print Assumptions estrin_empty_refuted.
