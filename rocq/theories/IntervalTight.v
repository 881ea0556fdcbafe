From Coq Require Import ZArith QArith Qround Qabs List Bool Lia Lqa.
From Verif Require Import QUtil FpFormatModel IntervalModel IntervalSpec IntervalProps FixedProps.
Import ListNotations.
(* ---- C12: the bounds are not wider than needed ---- *)
(* the ends of the product interval are products of ends *)
Lemma i_mul_ends : forall X Y, i_ok X -> i_ok Y ->
  exists x y x' y', inI x X /\ inI y Y /\ inI x' X /\ inI y' Y /\
    (x * y == fst (i_mul X Y))%Q /\ (x' * y' == snd (i_mul X Y))%Q.
Proof.
  intros [a b] [c d] OX OY. unfold i_ok, inI in *; cbn [fst snd i_mul] in *.
  assert (L : exists x y, (a <= x <= b)%Q /\ (c <= y <= d)%Q /\
     (x * y == qmin (qmin (a * c) (a * d)) (qmin (b * c) (b * d)))%Q).
  { destruct (qmin_spec (qmin (a * c) (a * d)) (qmin (b * c) (b * d))) as [_ [_ [E|E]]].
    - destruct (qmin_spec (a * c) (a * d)) as [_ [_ [F|F]]]; [exists a, c|exists a, d]; (split; [lra|split; [lra|]]); rewrite E, F; reflexivity.
    - destruct (qmin_spec (b * c) (b * d)) as [_ [_ [F|F]]]; [exists b, c|exists b, d]; (split; [lra|split; [lra|]]); rewrite E, F; reflexivity. }
  assert (U : exists x y, (a <= x <= b)%Q /\ (c <= y <= d)%Q /\
     (x * y == qmax (qmax (a * c) (a * d)) (qmax (b * c) (b * d)))%Q).
  { destruct (qmax_spec (qmax (a * c) (a * d)) (qmax (b * c) (b * d))) as [_ [_ [E|E]]].
    - destruct (qmax_spec (a * c) (a * d)) as [_ [_ [F|F]]]; [exists a, c|exists a, d]; (split; [lra|split; [lra|]]); rewrite E, F; reflexivity.
    - destruct (qmax_spec (b * c) (b * d)) as [_ [_ [F|F]]]; [exists b, c|exists b, d]; (split; [lra|split; [lra|]]); rewrite E, F; reflexivity. }
  destruct L as [x [y [L1 [L2 L3]]]], U as [x' [y' [U1 [U2 U3]]]].
  exists x, y, x', y'. auto 10.
Qed.

(* operators whose range is the smallest one *)
Definition tight_op (o : nop) : Prop :=
  match o with
  | OAdd | OSub | OMul _ | ODiv | ONeg | OAbs | OMin | OMax | OFma | OFms | OFmaNeg | OFmsNeg | ODot
  | OFloor | OCeil | ONearest | OPow2 | OExp => True
  | _ => False
  end.
Definition reached (o : nop) (Xs : list itv) (r : Q) : Prop :=
  exists vs, Forall2 inI vs Xs /\ (nval o vs == r)%Q.

Ltac f2 := repeat (first [apply Forall2_nil | apply Forall2_cons]); auto.
Lemma i_neg_ok : forall X, i_ok X -> i_ok (i_neg X).
Proof. intros [a b]. unfold i_ok; cbn. lra. Qed.
Lemma hi_in : forall X, i_ok X -> inI (snd X) X. Proof. intros [a b]. unfold i_ok, inI; cbn. lra. Qed.
Lemma neg_in : forall X x, inI x (i_neg X) -> inI (- x)%Q X.
Proof. intros [a b] x. unfold inI; cbn. lra. Qed.

Lemma bare_range_tight : forall o Xs R, tight_op o -> Forall i_ok Xs -> bare_range o Xs = Some (Some R) ->
  reached o Xs (fst R) /\ reached o Xs (snd R).
Proof.
  intros o Xs R T OK E. unfold reached.
  destruct Xs as [|X Xs]; [destruct o; discriminate|]. inversion OK as [|? ? OX OK1]; subst.
  destruct Xs as [|Y Xs].
  { pose proof (i_ok_in X OX) as LX. pose proof (hi_in X OX) as HX.
    destruct o; cbn [bare_range] in E; try discriminate; try contradiction; cbn [nval].
    - injection E as <-. split; [exists [snd X]|exists [fst X]]; split; f2; reflexivity.
    - injection E as <-. destruct X as [a b]; unfold i_ok, inI, i_abs in *; cbn [fst snd] in *.
      destruct (Qle_bool 0 a) eqn:A; qb; [|destruct (Qle_bool b 0) eqn:B; qb]; cbn [fst snd i_neg].
      + split; [exists [a]|exists [b]]; (split; [f2|]); apply Qabs_pos; lra.
      + split; [exists [b]|exists [a]]; (split; [f2|]); apply Qabs_neg; lra.
      + split; [exists [0%Q]; split; [f2; cbn; lra|reflexivity]|].
        destruct (qmax_spec (- a) b) as [_ [_ [F|F]]].
        * exists [a]. split; [f2|]. rewrite F. apply Qabs_neg. lra.
        * exists [b]. split; [f2|]. rewrite F. apply Qabs_pos. lra.
    - injection E as <-. split; [exists [fst X]|exists [snd X]]; split; f2; reflexivity.
    - injection E as <-. split; [exists [fst X]|exists [snd X]]; split; f2; reflexivity.
    - injection E as <-. split; [exists [fst X]|exists [snd X]]; split; f2; reflexivity.
    - destruct (is_int (fst X) && is_int (snd X)); [|discriminate]. injection E as <-.
      split; [exists [fst X]|exists [snd X]]; split; f2; reflexivity.
    - injection E as E. unfold exp_range in E.
      destruct (Qle_bool (fst (i_abs X)) 0) eqn:Z; [discriminate|]. qb. injection E as <-. cbn [fst snd].
      assert (EX : forall v w, (Qabs v == w)%Q -> (0 < w)%Q -> exponent v = qlog2 w).
      { intros v w Hv Hw. unfold exponent. destruct (Qeq_bool v 0) eqn:V; qb.
        - exfalso. assert (Qabs v == 0)%Q by (rewrite V; reflexivity). lra.
        - apply Z.le_antisymm; apply exponent_mono; lra. }
      destruct X as [a b]; unfold i_ok, inI, i_abs in *; cbn [fst snd] in *.
      destruct (Qle_bool 0 a) eqn:A; qb; [|destruct (Qle_bool b 0) eqn:B; qb]; cbn [fst snd i_neg] in *.
      + split; [exists [a]; rewrite (EX a a (Qabs_pos a ltac:(lra)))|exists [b]; rewrite (EX b b (Qabs_pos b ltac:(lra)))]; try lra; split; f2; reflexivity.
      + split; [exists [b]; rewrite (EX b (- b)%Q (Qabs_neg b ltac:(lra)))|exists [a]; rewrite (EX a (- a)%Q (Qabs_neg a ltac:(lra)))]; try lra; split; f2; reflexivity.
      + lra. }
  inversion OK1 as [|? ? OY OK2]; subst.
  pose proof (i_ok_in X OX) as LX. pose proof (hi_in X OX) as HX.
  pose proof (i_ok_in Y OY) as LY. pose proof (hi_in Y OY) as HY.
  destruct Xs as [|Z Xs].
  { destruct o; cbn [bare_range] in E; try discriminate; try contradiction; cbn [nval].
    - injection E as <-. split; [exists [fst X; fst Y]|exists [snd X; snd Y]]; split; f2; reflexivity.
    - injection E as <-. split; [exists [fst X; snd Y]|exists [snd X; fst Y]]; split; f2; reflexivity.
    - injection E as <-. destruct (i_mul_ends X Y OX OY) as [x [y [x' [y' [A [B [C [D [F G]]]]]]]]].
      split; [exists [x; y]|exists [x'; y']]; split; f2.
    - injection E as E. unfold i_div in E. destruct (i_has0 Y) eqn:Z; [discriminate|]. injection E as <-.
      unfold i_has0 in Z.
      assert (N : forall q, inI q Y -> ~ (q == 0)%Q).
      { intros q [Q1 Q2] Q0. apply andb_false_iff in Z. destruct Z as [Z|Z]; qb; lra. }
      assert (OI : i_ok (/ snd Y, / fst Y)%Q).
      { unfold i_ok; cbn [fst snd].
        assert (0 < fst Y \/ snd Y < 0)%Q by (apply andb_false_iff in Z; destruct Z as [Z|Z]; qb; [left|right]; auto).
        unfold i_ok in OY.
        assert (P : (0 < fst Y * snd Y)%Q).
        { destruct H; [apply Qmult_lt_0_compat; lra|].
          setoid_replace (fst Y * snd Y)%Q with ((- fst Y) * (- snd Y))%Q by ring. apply Qmult_lt_0_compat; lra. }
        apply Qmult_le_r with (fst Y * snd Y)%Q; auto.
        setoid_replace (/ snd Y * (fst Y * snd Y))%Q with (fst Y)%Q by (field; apply N; auto).
        setoid_replace (/ fst Y * (fst Y * snd Y))%Q with (snd Y)%Q by (field; apply N; auto). exact OY. }
      destruct (i_mul_ends X _ OX OI) as [x [y [x' [y' [A [B [C [D [F G]]]]]]]]].
      assert (IV : forall y, inI y (/ snd Y, / fst Y)%Q -> inI (/ y)%Q Y /\ ~ (y == 0)%Q).
      { clear - N LY HY OY Z. intros y [B1 B2]; cbn [fst snd] in *.
        pose proof (N _ LY) as NL. pose proof (N _ HY) as NH. unfold i_ok in OY.
        assert (S : (0 < fst Y \/ snd Y < 0)%Q) by (apply andb_false_iff in Z; destruct Z as [Z|Z]; qb; [left|right]; auto).
        destruct S as [S|S].
        - assert (0 < snd Y)%Q by lra. assert (0 < / snd Y)%Q by (apply Qinv_lt_0_compat; auto).
          assert (Y0 : (0 < y)%Q) by lra. split; [|lra].
          assert (Q1 : (y * snd Y >= 1)%Q). { apply Qle_trans with (/ snd Y * snd Y)%Q; [|apply Qmult_le_compat_r; lra].
            setoid_replace (/ snd Y * snd Y)%Q with 1%Q by (field; auto). lra. }
          assert (Q2 : (y * fst Y <= 1)%Q). { apply Qle_trans with (/ fst Y * fst Y)%Q; [apply Qmult_le_compat_r; lra|].
            setoid_replace (/ fst Y * fst Y)%Q with 1%Q by (field; auto). lra. }
          split.
          + apply Qmult_le_r with y; auto. setoid_replace (/ y * y)%Q with 1%Q by (field; lra). lra.
          + apply Qmult_le_r with y; auto. setoid_replace (/ y * y)%Q with 1%Q by (field; lra). lra.
        - assert (FY : (fst Y < 0)%Q) by lra.
          assert (IL : (/ fst Y < 0)%Q).
          { setoid_replace (/ fst Y)%Q with (- / (- fst Y))%Q by (field; auto).
            assert (0 < / - fst Y)%Q by (apply Qinv_lt_0_compat; lra). lra. }
          assert (Y0 : (y < 0)%Q) by lra. split; [|lra].
          assert (Q1 : (y * snd Y <= 1)%Q).
          { assert ((- snd Y) * (- y) <= (- snd Y) * (- / snd Y))%Q
              by (rewrite !(Qmult_comm (- snd Y)); apply Qmult_le_compat_r; lra).
            setoid_replace ((- snd Y) * (- / snd Y))%Q with 1%Q in H by (field; auto). lra. }
          assert (Q2 : (y * fst Y >= 1)%Q).
          { assert ((- fst Y) * (- / fst Y) <= (- fst Y) * (- y))%Q
              by (rewrite !(Qmult_comm (- fst Y)); apply Qmult_le_compat_r; lra).
            setoid_replace ((- fst Y) * (- / fst Y))%Q with 1%Q in H by (field; auto). lra. }
          split.
          + apply Qmult_le_r with (- y)%Q; [lra|]. setoid_replace (/ y * - y)%Q with (-1)%Q by (field; lra). lra.
          + apply Qmult_le_r with (- y)%Q; [lra|]. setoid_replace (/ y * - y)%Q with (-1)%Q by (field; lra). lra. }
      destruct (IV _ B) as [B1 B2], (IV _ D) as [D1 D2].
      split; [exists [x; (/ y)%Q]|exists [x'; (/ y')%Q]]; (split; [f2|]); cbv beta.
      + rewrite <- F. field. auto.
      + rewrite <- G. field. auto.
    - injection E as <-. cbn [fst snd]. split; [exists [fst X; fst Y]|exists [snd X; snd Y]]; split; f2; reflexivity.
    - injection E as <-. cbn [fst snd]. split; [exists [fst X; fst Y]|exists [snd X; snd Y]]; split; f2; reflexivity. }
  inversion OK2 as [|? ? OZ OK3]; subst.
  pose proof (i_ok_in Z OZ) as LZ. pose proof (hi_in Z OZ) as HZ.
  destruct Xs as [|W Xs].
  { destruct o; cbn [bare_range] in E; try discriminate; try contradiction; cbn [nval]; injection E as <-.
    - destruct (i_mul_ends X Y OX OY) as [x [y [x' [y' [A [B [C [D [F G]]]]]]]]].
      split; [exists [x; y; fst Z]|exists [x'; y'; snd Z]]; (split; [f2|]); cbn [i_add i_sub fst snd]; rewrite <- ?F, <- ?G; ring.
    - destruct (i_mul_ends X Y OX OY) as [x [y [x' [y' [A [B [C [D [F G]]]]]]]]].
      split; [exists [x; y; snd Z]|exists [x'; y'; fst Z]]; (split; [f2|]); cbn [i_add i_sub fst snd]; rewrite <- ?F, <- ?G; ring.
    - destruct (i_mul_ends (i_neg X) Y (i_neg_ok _ OX) OY) as [x [y [x' [y' [A [B [C [D [F G]]]]]]]]].
      apply neg_in in A, C.
      split; [exists [(- x)%Q; y; snd Z]|exists [(- x')%Q; y'; fst Z]]; (split; [f2|]); cbn [i_add i_sub fst snd]; rewrite <- ?F, <- ?G; ring.
    - destruct (i_mul_ends (i_neg X) Y (i_neg_ok _ OX) OY) as [x [y [x' [y' [A [B [C [D [F G]]]]]]]]].
      apply neg_in in A, C.
      split; [exists [(- x)%Q; y; fst Z]|exists [(- x')%Q; y'; snd Z]]; (split; [f2|]); cbn [i_add i_sub fst snd]; rewrite <- ?F, <- ?G; ring. }
  inversion OK3 as [|? ? OW OK4]; subst.
  destruct Xs; destruct o; cbn [bare_range] in E; try discriminate; try contradiction; cbn [nval]; injection E as <-.
  destruct (i_mul_ends X Y OX OY) as [x [y [x' [y' [A [B [C [D [F G]]]]]]]]].
  destruct (i_mul_ends Z W OZ OW) as [z [w [z' [w' [A' [B' [C' [D' [F' G']]]]]]]]].
  split; [exists [x; y; z; w]|exists [x'; y'; z'; w']]; (split; [f2|]); cbn [i_add fst snd]; rewrite <- ?F, <- ?G, <- ?F', <- ?G'; reflexivity.
Qed.

Fixpoint leaves (k : nat) (Xs : list itv) : list nexp :=
  match Xs with [] => [] | X :: t => NLeaf k (Some X) :: leaves (S k) t end.
Lemma leaves_ranges : forall Xs k, all_some (map evaluate_range (leaves k Xs)) = Some (map (fun X => Some X) Xs).
Proof. induction Xs as [|X t IH]; intros k; [reflexivity|]. cbn [leaves map evaluate_range get_interval all_some]. rewrite IH. reflexivity. Qed.
Lemma all_some_id : forall (Xs : list itv), all_some (map (fun X => Some X) Xs) = Some Xs.
Proof. induction Xs as [|X t IH]; [reflexivity|]. cbn [map all_some]. rewrite IH. reflexivity. Qed.
Lemma leaves_vals : forall vs Xs k, length vs = length Xs ->
  map (neval (fun i => nth (i - k) vs 0%Q)) (leaves k Xs) = vs.
Proof.
  intros vs Xs k. assert (G : forall Xs vs pre, length vs = length Xs ->
    map (neval (fun i => nth (i - k) (pre ++ vs) 0%Q)) (leaves (k + length pre) Xs) = vs).
  { clear. induction Xs as [|X t IH]; intros [|v vs] pre L; try discriminate; [reflexivity|].
    cbn [leaves map neval]. f_equal.
    - replace (k + length pre - k)%nat with (length pre + 0)%nat by lia. rewrite app_nth2_plus. reflexivity.
    - replace (S (k + length pre)) with (k + length (pre ++ [v]))%nat by (rewrite app_length; cbn; lia).
      replace (pre ++ v :: vs) with ((pre ++ [v]) ++ vs) by (rewrite <- app_assoc; reflexivity).
      apply IH. cbn in L. lia. }
  intros L. specialize (G Xs vs [] L). cbn in G. rewrite Nat.add_0_r in G. exact G.
Qed.

(* the evaluated range of an operator on independent inputs is the smallest
   interval: both of its ends are values of the node for some inputs *)
Theorem evaluate_range_tight : forall o Xs R, tight_op o -> Forall i_ok Xs ->
  evaluate_range (NOp o None (leaves 0 Xs)) = Some (Some R) ->
  exists env env', declared env (NOp o None (leaves 0 Xs)) /\ declared env' (NOp o None (leaves 0 Xs)) /\
    (neval env (NOp o None (leaves 0 Xs)) == fst R)%Q /\ (neval env' (NOp o None (leaves 0 Xs)) == snd R)%Q.
Proof.
  intros o Xs R T OK E.
  assert (B : bare_range o Xs = Some (Some R)).
  { revert E. destruct o; try contradiction; cbn [evaluate_range get_interval node_range]; rewrite leaves_ranges, all_some_id; auto. }
  destruct (bare_range_tight o Xs R T OK B) as [[vs [V1 V2]] [ws [W1 W2]]].
  assert (D : forall us, Forall2 inI us Xs ->
     let env := fun i => nth (i - 0) us 0%Q in
     declared env (NOp o None (leaves 0 Xs)) /\ neval env (NOp o None (leaves 0 Xs)) = nval o us).
  { intros us U env. assert (L : length us = length Xs) by (clear - U; induction U; cbn; auto). split.
    - apply declared_op. split; auto. pose proof (leaves_vals us Xs 0 L) as LV.
      unfold env. clear env. clear - U LV. revert LV. generalize (fun i : nat => nth (i - 0) us 0%Q) as e.
      generalize 0%nat. revert us U. induction Xs as [|X t IH]; intros us U n e LV; [constructor|].
      revert LV; inversion U as [|u ? us' ? HU U']; subst; intros LV. cbn [leaves map] in LV. injection LV as L1 L2.
      constructor; [cbn; cbn in L1; rewrite L1; auto|]. apply (IH us' U'); auto.
    - cbn [neval]. unfold env. rewrite (leaves_vals us Xs 0 L). reflexivity. }
  destruct (D vs V1) as [D1 D2], (D ws W1) as [D3 D4].
  eexists _, _. split; [exact D1|]. split; [exact D3|]. rewrite D2, D4. auto.
Qed.
Example evaluate_range_tight_example :
  evaluate_range (NOp OFms None (leaves 0 [(-1, 2); (-3, 1); (0, 5)]%Q)) = Some (Some (-6 - 5, 3 - 0)%Q)
  /\ tight_op OFms /\ Forall i_ok [(-1, 2); (-3, 1); (0, 5)]%Q.
Proof. split; [reflexivity|]. split; [exact I|]. repeat constructor; unfold i_ok; cbn; lra. Qed.
Print Assumptions evaluate_range_tight.
