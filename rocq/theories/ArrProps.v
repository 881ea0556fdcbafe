(* Tests of array functions: tables, verdict, maximal error. *)
From Coq Require Import ZArith QArith List Bool Lia Lqa.
From Verif Require Import QUtil FpFormatModel SpecialModel SpecialSpec CheckModel CheckLoops ArrModel ArrSpec.
Import ListNotations.
Open Scope nat_scope.

Lemma all_opt_length : forall A (l : list (option A)) r, all_opt l = Some r -> List.length r = List.length l.
Proof.
  intros A l. induction l as [|[a|] l IH]; intros r H; cbn [all_opt] in H; [injection H as <-; reflexivity| |discriminate].
  destruct (all_opt l) as [r'|] eqn:E; [|discriminate]. injection H as <-. cbn [List.length]. rewrite (IH r' eq_refl). reflexivity.
Qed.
Lemma all_opt_nth : forall A (l : list (option A)) r i, all_opt l = Some r -> nth_error r i = match nth_error l i with Some o => o | None => None end.
Proof.
  intros A l. induction l as [|[a|] l IH]; intros r i H; cbn [all_opt] in H; [injection H as <-; destruct i; reflexivity| |discriminate].
  destruct (all_opt l) as [r'|] eqn:E; [|discriminate]. injection H as <-. destruct i as [|i]; [reflexivity|]. cbn [nth_error]. apply IH. reflexivity.
Qed.
Lemma all_opt_some : forall A (l : list (option A)), (forall o, In o l -> o <> None) -> exists r, all_opt l = Some r.
Proof.
  intros A l. induction l as [|[a|] l IH]; intros H; cbn [all_opt]; [eexists; reflexivity| |].
  - destruct IH as [r E]; [intros o Ho; apply H; right; exact Ho|]. rewrite E. eexists. reflexivity.
  - elim (H None); [left; reflexivity|reflexivity].
Qed.
Lemma all_opt_none : forall A (l : list (option A)), In None l -> all_opt l = None.
Proof.
  intros A l. induction l as [|[a|] l IH]; intros H; cbn [all_opt]; [destruct H| |reflexivity].
  destruct H as [H|H]; [discriminate|]. rewrite (IH H). reflexivity.
Qed.
Lemma nth_error_seq : forall n s i, nth_error (seq s n) i = if i <? n then Some (s + i) else None.
Proof.
  induction n as [|n IH]; intros s i; [destruct i; reflexivity|]. destruct i as [|i]; cbn [seq nth_error].
  - cbn. f_equal. lia.
  - rewrite IH. change (S i <? S n) with (i <? n). destruct (i <? n); [f_equal; lia|reflexivity].
Qed.

Lemma nth_error_same : forall A (l l' : list A), (forall i, nth_error l i = nth_error l' i) -> l = l'.
Proof.
  intros A l. induction l as [|a l IH]; intros [|b l'] H; [reflexivity|discriminate (H 0)|discriminate (H 0)|].
  f_equal; [pose proof (H 0) as K; injection K as K; exact K|]. apply IH. intros i. exact (H (S i)).
Qed.

(* ---- The rows (size, offset). *)
Fixpoint rows_from (k : nat) (sizes : list nat) : list (nat * nat) :=
  match sizes with [] => [] | s :: l => (s, k) :: rows_from (k + s) l end.
Lemma rows_from_nth : forall sizes k i, nth_error (rows_from k sizes) i
  = match nth_error sizes i with Some s => Some (s, k + sum (firstn i sizes)) | None => None end.
Proof.
  induction sizes as [|s l IH]; intros k i; [destruct i; reflexivity|]. destruct i as [|i]; cbn [rows_from nth_error firstn].
  - cbn. do 2 f_equal. lia.
  - rewrite IH. destruct (nth_error l i); [|reflexivity]. cbn [sum fold_right]. do 2 f_equal. unfold sum. lia.
Qed.
Lemma rows_from_length : forall sizes k, List.length (rows_from k sizes) = List.length sizes.
Proof. induction sizes as [|s l IH]; intros k; cbn [rows_from List.length]; [reflexivity|]. rewrite IH. reflexivity. Qed.
Lemma rows_from_fst : forall sizes k, map fst (rows_from k sizes) = sizes.
Proof. induction sizes as [|s l IH]; intros k; cbn [rows_from map fst]; [reflexivity|]. rewrite IH. reflexivity. Qed.
Lemma rows_from_consecutive : forall sizes k, consecutive k (rows_from k sizes) (k + sum sizes).
Proof.
  induction sizes as [|s l IH]; intros k; cbn [rows_from consecutive sum fold_right]; [lia|].
  split; [reflexivity|]. replace (k + (s + fold_right Nat.add 0 l)) with (k + s + sum l) by (unfold sum; lia). apply IH.
Qed.
Lemma size_offset_rows : forall sizes, size_offset (List.length sizes) sizes = Some (rows_from 0 sizes).
Proof.
  intros sizes. unfold size_offset.
  cbv zeta. match goal with |- all_opt ?m = _ => set (l := m) end.
  assert (N : forall i, i < List.length sizes -> nth_error l i = Some (nth_error (rows_from 0 sizes) i)).
  { intros i Hi. unfold l. rewrite nth_error_map, nth_error_seq. rewrite (proj2 (Nat.ltb_lt _ _) Hi). cbn [option_map].
    rewrite nth_error_map, nth_error_seq. rewrite ?Nat.add_0_l.
    rewrite (proj2 (Nat.ltb_lt _ _) Hi). cbn [option_map].
    rewrite rows_from_nth, Nat.add_0_l. destruct (nth_error sizes i); reflexivity. }
  destruct (all_opt_some _ l) as [r E].
  { intros o Ho. apply In_nth_error in Ho as [i Hi].
    assert (Li : i < List.length sizes).
    { pose proof (proj1 (nth_error_Some l i) ltac:(rewrite Hi; discriminate)) as K. unfold l in K. rewrite map_length, seq_length in K. exact K. }
    rewrite (N i Li) in Hi. injection Hi as <-. apply nth_error_Some. rewrite rows_from_length. exact Li. }
  rewrite E. f_equal. apply nth_error_same. intros i. rewrite (all_opt_nth _ _ _ i E).
  destruct (Nat.lt_ge_cases i (List.length sizes)) as [Hi|Hi]; [rewrite (N i Hi); reflexivity|].
  replace (nth_error l i) with (@None (option (nat * nat))).
  - symmetry. apply nth_error_None. rewrite rows_from_length. exact Hi.
  - symmetry. apply nth_error_None. unfold l. rewrite map_length, seq_length. exact Hi.
Qed.
Lemma sizes_length : forall X (vt std : list (list X)) rand, List.length (table_sizes vt std rand) = test_total vt std rand.
Proof.
  intros X vt std rand. unfold table_sizes, test_total. rewrite !app_length, map_length.
  destruct (0 <? List.length vt); cbn [List.length]; lia.
Qed.
(* The arrays follow one another and share the table of inputs, whose size is that of the
   output table *)
Theorem array_layout : forall X (vt std : list (list X)) rand,
  exists so, size_offset (test_total vt std rand) (table_sizes vt std rand) = Some so
    /\ map fst so = table_sizes vt std rand /\ consecutive 0 so (sum (table_sizes vt std rand))
    /\ (0 < test_total vt std rand -> output_size so (test_total vt std rand) = Some (sum (table_sizes vt std rand))).
Proof.
  intros X vt std rand. rewrite <- sizes_length. set (sizes := table_sizes vt std rand). exists (rows_from 0 sizes).
  split; [apply size_offset_rows|]. split; [apply rows_from_fst|]. split; [exact (rows_from_consecutive sizes 0)|].
  intros H. unfold output_size. destruct (List.length sizes) as [|t] eqn:L; [lia|].
  rewrite rows_from_nth. destruct (nth_error sizes t) as [s|] eqn:E; [|apply nth_error_None in E; lia].
  f_equal. rewrite Nat.add_0_l. rewrite <- (firstn_skipn t sizes) at 2.
  assert (K : skipn t sizes = [s]).
  { clear H. revert t L E. induction sizes as [|a l IH]; intros t L E; [discriminate|]. cbn [List.length] in L. injection L as L.
    destruct t as [|t]; cbn [skipn nth_error] in *; [destruct l; [injection E as <-; reflexivity|discriminate]|].
    apply IH; assumption. }
  rewrite K. assert (S : forall a b, sum (a ++ b) = sum a + sum b).
  { intros a b. unfold sum. induction a as [|x a IH]; cbn [app fold_right]; [reflexivity|]. rewrite IH. lia. }
  rewrite S. cbn. lia.
Qed.

(* ---- The inputs. *)
(* without standard test cases: the values of the command line, then the random ones *)
Theorem array_inputs_partial : forall X (rnd : X -> X) rng (vt : list (list X)) rand,
  (forall t, In t vt -> t <> []) ->
  exists ins, input_table rnd rng vt [] rand = Some ins
    /\ List.length ins = List.length vt + sum rand
    /\ (forall i x t, nth_error vt i = Some (x :: t) -> nth_error ins i = Some (rnd x))
    /\ (forall i, List.length vt <= i < List.length vt + sum rand -> nth_error ins i = Some (rnd (rng i))).
Proof.
  intros X rnd rng vt rand H. unfold input_table.
  assert (S : sum (table_sizes vt [] rand) = List.length vt + sum rand).
  { unfold table_sizes. destruct (Nat.ltb_spec 0 (List.length vt)); cbn [app map sum fold_right]; [reflexivity|]. unfold sum. lia. }
  rewrite S. set (n := List.length vt + sum rand).
  destruct (all_opt_some _ (map (input_value rnd rng vt []) (seq 0 n))) as [ins E].
  { intros o Ho. apply in_map_iff in Ho as (i & <- & _). unfold input_value.
    destruct (Nat.ltb_spec i (List.length vt)) as [L|L]; [|discriminate].
    destruct (nth_error vt i) as [[|x t]|] eqn:E; [|discriminate|apply nth_error_None in E; lia].
    elim (H []); [eapply nth_error_In; exact E|reflexivity]. }
  exists ins. split; [exact E|].
  assert (N : forall i, i < n -> nth_error ins i = input_value rnd rng vt [] i).
  { intros i Hi. rewrite (all_opt_nth _ _ _ i E), nth_error_map, nth_error_seq, (proj2 (Nat.ltb_lt _ _) Hi). reflexivity. }
  split; [rewrite (all_opt_length _ _ _ E), map_length, seq_length; reflexivity|]. split.
  - intros i x t Ht. pose proof (proj1 (nth_error_Some vt i) ltac:(rewrite Ht; discriminate)) as L.
    rewrite N by (unfold n; lia). unfold input_value. rewrite (proj2 (Nat.ltb_lt _ _) L), Ht. reflexivity.
  - intros i [L1 L2]. rewrite N by exact L2. unfold input_value.
    destruct (Nat.ltb_spec i (List.length vt)); [lia|reflexivity].
Qed.
(* with standard test cases the tables are never generated, unless all arrays are empty *)
Theorem array_standard_cases_refuted : forall X (rnd : X -> X) rng (vt std : list (list X)) rand,
  std <> [] -> 0 < sum (map (@List.length X) std ++ rand) -> input_table rnd rng vt std rand = None.
Proof.
  intros X rnd rng vt std rand Hs Hn. unfold input_table. apply all_opt_none. apply in_map_iff. exists (List.length vt). split.
  - unfold input_value. rewrite Nat.ltb_irrefl, Nat.sub_diag. destruct std as [|s std]; [congruence|reflexivity].
  - apply in_seq. split; [lia|]. unfold table_sizes. destruct (Nat.ltb_spec 0 (List.length vt)) as [L|L]; cbn [app sum fold_right] in *; unfold sum in *; lia.
Qed.

(* ---- The expected values. *)
Lemma fill_array_spec : forall R dim0 (gen : nat -> option R) off is t,
  (forall i, In i is -> gen i <> None /\ off + i < dim0) ->
  exists t', fill_array dim0 gen off is t = Some t'
    /\ (forall i, In i is -> t' (off + i) = gen i) /\ (forall k, (forall i, In i is -> k <> off + i) -> t' k = t k).
Proof.
  intros R dim0 gen off is. induction is as [|i is IH]; intros t H; cbn [fill_array].
  - exists t. split; [reflexivity|]. split; [intros i []|reflexivity].
  - destruct (H i (or_introl eq_refl)) as [Hg Hd]. destruct (gen i) as [r|] eqn:G; [|congruence].
    rewrite (proj2 (Nat.ltb_lt _ _) Hd).
    destruct (IH (set_row t (off + i) r)) as (t' & E & A & B); [intros k Hk; apply H; right; exact Hk|].
    exists t'. split; [exact E|]. split.
    + intros k [<-|Hk]; [|apply A; exact Hk]. destruct (in_dec Nat.eq_dec i is) as [D|D]; [apply A; exact D|].
      rewrite B by (intros k Hk E2; assert (k = i) by lia; congruence). unfold set_row. rewrite Nat.eqb_refl. symmetry. exact G.
    + intros k Hk. rewrite B by (intros j Hj; apply Hk; right; exact Hj). unfold set_row.
      destruct (Nat.eqb_spec k (off + i)) as [E2|_]; [elim (Hk i (or_introl eq_refl)); exact E2|reflexivity].
Qed.
Lemma fill_table_spec : forall X R dim0 (check : X -> option R) ins rows from n t,
  consecutive from rows n -> n <= dim0 -> n <= List.length ins -> (forall x, In x ins -> check x <> None) ->
  exists t', fill_table dim0 check ins rows t = Some t'
    /\ (forall k x, from <= k < n -> nth_error ins k = Some x -> t' k = check x) /\ (forall k, k < from -> t' k = t k).
Proof.
  intros X R dim0 check ins rows. induction rows as [|[s o] rows IH]; intros from n t C Hd Hi Hc; cbn [fill_table].
  - cbn [consecutive] in C. subst. exists t. split; [reflexivity|]. split; [intros; lia|reflexivity].
  - cbn [consecutive] in C. destruct C as [-> C].
    assert (Hn : forall f r m, consecutive f r m -> f <= m).
    { intros f r. revert f. induction r as [|[a b] r IHr]; intros f m Cm; cbn [consecutive] in Cm; [lia|]. destruct Cm as [_ Cm]. apply IHr in Cm. lia. }
    pose proof (Hn _ _ _ C) as L.
    set (gen := fun i => match nth_error ins (from + i) with Some x => check x | None => None end).
    assert (G : forall k, In k (seq 0 s) -> gen k <> None /\ from + k < dim0).
    { intros i K. apply in_seq in K. split; [|lia]. unfold gen. destruct (nth_error ins (from + i)) as [x|] eqn:E.
      - apply Hc. eapply nth_error_In. exact E.
      - apply nth_error_None in E. lia. }
    destruct (fill_array_spec R dim0 gen from (seq 0 s) t G) as (t1 & E1 & A1 & B1). rewrite E1.
    destruct (IH (from + s) n t1 C Hd Hi Hc) as (t2 & E2 & A2 & B2). exists t2. split; [exact E2|]. split.
    + intros k x Hk Hx. destruct (Nat.lt_ge_cases k (from + s)) as [K|K]; [|apply A2; [lia|exact Hx]].
      rewrite B2 by exact K. replace k with (from + (k - from)) by lia. rewrite A1 by (apply in_seq; lia).
      unfold gen. replace (from + (k - from)) with k by lia. rewrite Hx. reflexivity.
    + intros k Hk. rewrite B2 by lia. apply B1. intros i _. lia.
Qed.
(* every row of the table is that of its input *)
Theorem array_expected : forall X R (check : X -> option R) ins so,
  consecutive 0 so (List.length ins) -> sum (map fst so) = List.length ins -> (forall x, In x ins -> check x <> None) ->
  exists t, expected_table check ins so = Some t /\ forall k x, nth_error ins k = Some x -> t k = check x.
Proof.
  intros X R check ins so C Hs Hc.
  destruct (fill_table_spec X R (sum (map fst so)) check ins so 0 (List.length ins) (fun _ => None) C) as (t & E & A & _); [lia|lia|exact Hc|].
  exists t. split; [exact E|]. intros k x Hk. apply A; [|exact Hk].
  pose proof (proj1 (nth_error_Some ins k) ltac:(rewrite Hk; discriminate)). lia.
Qed.

(* ---- The verdict. *)
Lemma check_array_spec : forall brk fails off js (g : nat -> bool), (forall j, In j js -> fails (off + j) = Some (g (off + j))) ->
  check_array brk fails off js = Some (if negb brk && existsb (fun j => g (off + j)) js then Some 1%Z else None).
Proof.
  intros brk fails off js g. induction js as [|j js IH]; intros H; cbn [check_array existsb]; [rewrite andb_false_r; reflexivity|].
  rewrite H by (left; reflexivity). rewrite IH by (intros k Hk; apply H; right; exact Hk).
  destruct (g (off + j)), brk; reflexivity.
Qed.
Fixpoint row_tests {R} (brk : bool) (failure : datum -> R -> option bool) (fut : nat -> nat -> (nat -> datum) -> nat -> datum)
  (expected : table R) (rows : list (nat * nat)) (out : nat -> datum) : option Z :=
  match rows with
  | [] => Some 0%Z
  | (len, offset) :: rows =>
      let out := fut offset len out in
      let fails i := match expected i with Some r => failure (out i) r | None => None end in
      match check_array brk fails offset (seq 0 len) with
      | None => None
      | Some (Some r) => Some r
      | Some None => row_tests brk failure fut expected rows out
      end
  end.
Lemma array_tests_rows : forall R brk failure fut (expected : table R) rest pre out,
  array_tests brk failure fut expected (pre ++ rest) (seq (List.length pre) (List.length rest)) out
  = row_tests brk failure fut expected rest out.
Proof.
  intros R brk failure fut expected rest. induction rest as [|[len off] rest IH]; intros pre out; [reflexivity|].
  cbn [List.length seq array_tests row_tests].
  rewrite nth_error_app2, Nat.sub_diag by lia. cbn [nth_error].
  destruct (check_array _ _ _ _) as [[r|]|]; try reflexivity.
  specialize (IH (pre ++ [(len, off)]) (fut off len out)). rewrite <- app_assoc in IH. cbn [app] in IH.
  rewrite app_length in IH. cbn [List.length] in IH. rewrite Nat.add_1_r in IH. exact IH.
Qed.
Lemma existsb_shift : forall (g : nat -> bool) s n k, existsb (fun j => g (k + j)) (seq s n) = existsb g (seq (k + s) n).
Proof.
  intros g s n. revert s. induction n as [|n IH]; intros s k; cbn [seq existsb]; [reflexivity|].
  rewrite IH. replace (k + S s) with (S (k + s)) by lia. reflexivity.
Qed.
Lemma row_tests_spec : forall X R brk (failure : datum -> R -> option bool) f fut (expected : table R) (ins : list X) (g : nat -> bool) rows from out,
  consecutive from rows (List.length ins) -> computes_elements f ins fut ->
  (forall k x, nth_error ins k = Some x -> match expected k with Some r => failure (f x) r | None => None end = Some (g k)) ->
  row_tests brk failure fut expected rows out
  = Some (if negb brk && existsb g (seq from (List.length ins - from)) then 1%Z else 0%Z).
Proof.
  intros X R brk failure f fut expected ins g rows. induction rows as [|[s o] rows IH]; intros from out C Hf Hg; cbn [row_tests].
  - cbn [consecutive] in C. rewrite C, Nat.sub_diag. cbn [seq existsb]. rewrite andb_false_r. reflexivity.
  - cbn [consecutive] in C. destruct C as [-> C].
    assert (L : from + s <= List.length ins).
    { clear - C. revert from s C. induction rows as [|[a b] rows IHr]; intros from s C; cbn [consecutive] in C; [lia|].
      destruct C as [_ C]. specialize (IHr _ _ C). lia. }
    rewrite check_array_spec with (g := g).
    + rewrite existsb_shift, Nat.add_0_r.
      assert (Sp : seq from (List.length ins - from) = seq from s ++ seq (from + s) (List.length ins - (from + s))).
      { rewrite <- seq_app. f_equal. lia. }
      rewrite Sp, existsb_app.
      destruct (negb brk) eqn:B; cbn [andb].
      * destruct (existsb g (seq from s)); cbn [orb]; [reflexivity|]. rewrite (IH (from + s)) by assumption. rewrite ?B. reflexivity.
      * rewrite (IH (from + s)) by assumption. rewrite ?B. reflexivity.
    + intros j Hj. apply in_seq in Hj. destruct (nth_error ins (from + j)) as [x|] eqn:E; [|apply nth_error_None in E; lia].
      rewrite (Hf from s out j x) by (lia || exact E). apply Hg. exact E.
Qed.

Definition stored_values {X} (F : fpfmt) (a : accuracy) (emulate : X -> fpv) (x : X) : option (list datum) :=
  all_cst F (check_values F a (emulate x)).
Definition bad {X} (F : fpfmt) (a : accuracy) (emulate : X -> fpv) (f : X -> datum) (x : X) : bool :=
  match accepts F a (emulate x) (f x) with Some b => negb b | None => false end.

Lemma array_test_run : forall X brk F a (emulate : X -> fpv) (f : X -> datum) fut (ins : list X) (vt std : list (list X)) rand,
  0 < test_total vt std rand -> List.length ins = sum (table_sizes vt std rand) ->
  computes_elements f ins fut -> (forall x, In x ins -> accepts F a (emulate x) (f x) <> None) ->
  array_test brk (stored_values F a emulate) (failure_test a) ins vt std rand fut
  = Some (if negb brk && existsb (bad F a emulate f) ins then 1%Z else 0%Z).
Proof.
  intros X brk F a emulate f fut ins vt std rand Ht Hl Hf Ha. unfold array_test.
  destruct (array_layout X vt std rand) as (so & E & Hs & C & Ho). rewrite E, (Ho Ht).
  assert (Lso : List.length so = test_total vt std rand) by (rewrite <- (sizes_length X), <- Hs, map_length; reflexivity).
  assert (Hc : forall x, In x ins -> stored_values F a emulate x <> None).
  { intros x Hx K. apply (Ha x Hx). unfold accepts. unfold stored_values in K. rewrite K. reflexivity. }
  destruct (array_expected X _ (stored_values F a emulate) ins so) as (t & Et & At);
    [rewrite Hl; exact C|rewrite Hs, Hl; reflexivity|exact Hc|].
  rewrite Et. rewrite <- Lso. pose proof (array_tests_rows _ brk (failure_test a) fut t so [] (fun _ => DNaN)) as R. cbn [app List.length] in R. rewrite R.
  set (g := fun k => match nth_error ins k with Some x => bad F a emulate f x | None => false end).
  rewrite (row_tests_spec X _ brk (failure_test a) f fut t ins g so 0).
  - rewrite Nat.sub_0_r. clear. unfold g.
    assert (K : forall pre l, existsb (fun k => match nth_error (pre ++ l) k with Some x => bad F a emulate f x | None => false end)
              (seq (List.length pre) (List.length l)) = existsb (bad F a emulate f) l).
    { intros pre l. revert pre. induction l as [|x l IH]; intros pre; [reflexivity|]. cbn [List.length seq existsb].
      rewrite nth_error_app2, Nat.sub_diag by lia. cbn [nth_error]. f_equal.
      specialize (IH (pre ++ [x])). rewrite <- app_assoc in IH. cbn [app] in IH. rewrite app_length, Nat.add_1_r in IH. exact IH. }
    pose proof (K [] ins) as K0. cbn [app List.length] in K0. rewrite K0. reflexivity.
  - rewrite Hl. exact C.
  - exact Hf.
  - intros k x Hk. rewrite (At k x Hk). unfold g, bad. rewrite Hk. pose proof (nth_error_In _ _ Hk) as I. specialize (Ha x I).
    unfold accepts in Ha |- *. unfold stored_values. destruct (all_cst F (check_values F a (emulate x))) as [st|]; [|congruence].
    destruct (failure_test a (f x) st); [rewrite negb_involutive; reflexivity|congruence].
Qed.

(* The test of an array function that computes f on each element of the array it is given
   returns 0 exactly when f is right on all the inputs and 1 exactly when it is wrong on one *)
Theorem array_test_partial : forall X F a (emulate : X -> fpv) (f : X -> datum) fut (ins : list X) (vt std : list (list X)) rand,
  0 < test_total vt std rand -> List.length ins = sum (table_sizes vt std rand) ->
  computes_elements f ins fut -> (forall x, In x ins -> accepts F a (emulate x) (f x) <> None) ->
  let res := array_test false (stored_values F a emulate) (failure_test a) ins vt std rand fut in
  (res = Some 0%Z <-> forall x, In x ins -> accepts F a (emulate x) (f x) = Some true)
  /\ (res = Some 1%Z <-> exists x, In x ins /\ accepts F a (emulate x) (f x) = Some false).
Proof.
  intros X F a emulate f fut ins vt std rand Ht Hl Hf Ha res. unfold res.
  rewrite (array_test_run X false F a emulate f fut ins vt std rand Ht Hl Hf Ha). cbn [negb andb].
  assert (B : forall x, In x ins -> bad F a emulate f x = true <-> accepts F a (emulate x) (f x) = Some false).
  { intros x Hx. specialize (Ha x Hx). unfold bad. destruct (accepts F a (emulate x) (f x)) as [[|]|]; cbn [negb]; split; congruence. }
  destruct (existsb (bad F a emulate f) ins) eqn:E; split; (split; intros H).
  - discriminate.
  - apply existsb_exists in E as (x & Hx & K). apply B in K; [|exact Hx]. rewrite (H x Hx) in K. discriminate.
  - apply existsb_exists in E as (x & Hx & K). exists x. split; [exact Hx|]. apply B; assumption.
  - reflexivity.
  - intros x Hx. destruct (accepts F a (emulate x) (f x)) as [[|]|] eqn:A; [reflexivity| |elim (Ha x Hx); exact A].
    assert (K : existsb (bad F a emulate f) ins = true) by (apply existsb_exists; exists x; split; [exact Hx|apply B; assumption]).
    congruence.
  - reflexivity.
  - discriminate.
  - destruct H as (x & Hx & A). assert (K : existsb (bad F a emulate f) ins = true) by (apply existsb_exists; exists x; split; [exact Hx|apply B; assumption]).
    congruence.
Qed.
(* with break_error the test never fails *)
Theorem array_break_error_refuted : forall X F a (emulate : X -> fpv) (f : X -> datum) fut (ins : list X) (vt std : list (list X)) rand,
  0 < test_total vt std rand -> List.length ins = sum (table_sizes vt std rand) ->
  computes_elements f ins fut -> (forall x, In x ins -> accepts F a (emulate x) (f x) <> None) ->
  array_test true (stored_values F a emulate) (failure_test a) ins vt std rand fut = Some 0%Z.
Proof. intros X F a emulate f fut ins vt std rand Ht Hl Hf Ha. rewrite (array_test_run X true F a emulate f fut ins vt std rand Ht Hl Hf Ha). reflexivity. Qed.
(* A function which also overwrites everything around its array is accepted *)
Definition overwriting {X} (f : X -> datum) (ins : list X) (junk : datum) (offset len : nat) (out : nat -> datum) (i : nat) : datum :=
  if (offset <=? i) && (i <? offset + len) then match nth_error ins i with Some x => f x | None => junk end else junk.
Theorem array_overrun_refuted : forall X F a (emulate : X -> fpv) (f : X -> datum) junk (ins : list X) (vt std : list (list X)) rand,
  0 < test_total vt std rand -> List.length ins = sum (table_sizes vt std rand) ->
  (forall x, In x ins -> accepts F a (emulate x) (f x) = Some true) -> junk <> DNaN ->
  array_test false (stored_values F a emulate) (failure_test a) ins vt std rand (overwriting f ins junk) = Some 0%Z
  /\ ~ stays_inside (overwriting f ins junk).
Proof.
  intros X F a emulate f junk ins vt std rand Ht Hl Ha Hj.
  assert (Hc : computes_elements f ins (overwriting f ins junk)).
  { intros off len out j x Hj2 Hx. unfold overwriting. rewrite (proj2 (Nat.leb_le off (off + j))) by lia.
    rewrite (proj2 (Nat.ltb_lt (off + j) (off + len))) by lia. cbn [andb]. rewrite Hx. reflexivity. }
  split.
  - apply (array_test_partial X F a emulate f _ ins vt std rand Ht Hl Hc); [|exact Ha]. intros x Hx. rewrite (Ha x Hx). discriminate.
  - intros S. specialize (S 0 0 (fun _ => DNaN) 0 (or_intror (Nat.le_refl 0))). unfold overwriting in S. cbn [Nat.leb Nat.ltb andb Nat.add] in S. congruence.
Qed.

(* ---- The maximal error. *)
Lemma gt_mixed : forall r e m, c_gt r m = true -> c_gt e m = false -> e <> DNaN -> c_gt r e = true.
Proof.
  intros r e m. unfold c_gt.
  destruct r as [|[|]|s1|p], e as [|[|]|s2|q], m as [|[|]|s3|w]; cbn [ieee_cmp Bool.eqb]; try congruence;
    repeat match goal with |- context [Qcompare ?a ?b] => destruct (Qcompare_spec a b) end; try congruence; intros; exfalso; lra.
Qed.
Lemma eq_refl_d : forall m, m <> DNaN -> c_eq m m = true.
Proof.
  intros m H. unfold c_eq. destruct m as [|[|]|s|q]; cbn [ieee_cmp Bool.eqb]; try congruence.
  destruct (Qcompare_spec q q); try reflexivity; exfalso; lra.
Qed.
Lemma gt_not_eq : forall e m, c_gt e m = true -> c_eq m e = false.
Proof.
  intros e m. unfold c_gt, c_eq. destruct e as [|[|]|s1|p], m as [|[|]|s2|q]; cbn [ieee_cmp Bool.eqb]; try congruence;
    repeat match goal with |- context [Qcompare ?a ?b] => destruct (Qcompare_spec a b) end; try congruence; intros; exfalso; lra.
Qed.
Lemma gt_trans : forall a b c, c_gt a b = true -> c_gt b c = true -> c_gt a c = true.
Proof.
  intros r e m. unfold c_gt.
  destruct r as [|[|]|s1|p], e as [|[|]|s2|q], m as [|[|]|s3|w]; cbn [ieee_cmp Bool.eqb]; try congruence;
    repeat match goal with |- context [Qcompare ?a ?b] => destruct (Qcompare_spec a b) end; try congruence; intros; exfalso; lra.
Qed.
Lemma index_run : forall errors k m i, m <> DNaN ->
  let r := fold_left index_step (combine (seq k (List.length errors)) errors) (m, i) in
  fst r = fold_left vmax_step errors m
  /\ ((fst r = m /\ snd r = i)
      \/ (c_gt (fst r) m = true /\ exists j, snd r = k + j /\ nth_error errors j = Some (fst r)
          /\ forall p e, p < j -> nth_error errors p = Some e -> c_gt (fst r) e = true \/ e = DNaN)).
Proof.
  induction errors as [|e errors IH]; intros k m i Hm; cbn [List.length seq combine fold_left].
  - cbv zeta. cbn [fst snd]. auto.
  - assert (St : index_step (m, i) (k, e) = if negb (is_nan_d e) && c_gt e m then (e, k) else (m, i)).
    { unfold index_step. cbn [fst snd]. unfold vmax_step, c_max. destruct (is_nan_d e); cbn [negb andb]; [rewrite eq_refl_d by exact Hm; reflexivity|].
      destruct (c_gt e m) eqn:G; [rewrite gt_not_eq by exact G; reflexivity|rewrite eq_refl_d by exact Hm; reflexivity]. }
    rewrite St. assert (V : vmax_step m e = if negb (is_nan_d e) && c_gt e m then e else m).
    { unfold vmax_step, c_max. destruct (is_nan_d e); reflexivity. }
    rewrite V. destruct (is_nan_d e) eqn:N; cbn [negb andb].
    + destruct (IH (S k) m i Hm) as [A [B|(B & j & C & D & E)]]; cbv zeta in *; (split; [exact A|]); [left; exact B|].
      right. split; [exact B|]. exists (S j). split; [lia|]. split; [exact D|]. intros [|p] x Hp Hx; cbn [nth_error] in Hx.
      * injection Hx as <-. right. destruct e; try discriminate N. reflexivity.
      * apply (E p x); [lia|exact Hx].
    + destruct (c_gt e m) eqn:G.
      * assert (He : e <> DNaN) by (intros ->; discriminate N).
        destruct (IH (S k) e k He) as [A [[B1 B2]|(B & j & C & D & E)]]; cbv zeta in *; (split; [exact A|]); right.
        -- rewrite B1. split; [exact G|]. exists 0. split; [lia|]. split; [reflexivity|]. intros p x Hp. lia.
        -- split; [exact (gt_trans _ _ _ B G)|]. exists (S j). split; [lia|]. split; [exact D|]. intros [|p] x Hp Hx; cbn [nth_error] in Hx.
           ++ injection Hx as <-. left. exact B.
           ++ apply (E p x); [lia|exact Hx].
      * destruct (IH (S k) m i Hm) as [A [B|(B & j & C & D & E)]]; cbv zeta in *; (split; [exact A|]); [left; exact B|].
        right. split; [exact B|]. exists (S j). split; [lia|]. split; [exact D|]. intros [|p] x Hp Hx; cbn [nth_error] in Hx.
        -- injection Hx as <-. left. apply (gt_mixed _ _ _ B G). intros ->. discriminate N.
        -- apply (E p x); [lia|exact Hx].
Qed.
(* The index printed is that of the first of the largest errors, NaNs apart *)
Theorem max_index_correct : forall errors,
  let (m, i) := max_index errors in
  m <> DNaN /\ (forall e, In e errors -> c_gt e m = false)
  /\ ((m = minus_one /\ i = 0)
      \/ (nth_error errors i = Some m /\ forall p e, p < i -> nth_error errors p = Some e -> c_gt m e = true \/ e = DNaN)).
Proof.
  intros errors. pose proof (index_run errors 0 minus_one 0 ltac:(discriminate)) as H. cbv zeta in H. fold (max_index errors) in H.
  destruct (max_index errors) as [m i]. cbn [fst snd] in H. destruct H as [A B].
  destruct (vmax_spec errors minus_one ltac:(discriminate)) as (V1 & V2 & _). cbv zeta in V1, V2. rewrite <- A in V1, V2.
  split; [exact V1|]. split; [exact V2|]. destruct B as [B|(_ & j & C & D & E)]; [left; exact B|]. right. cbn [Nat.add] in C. subst j. auto.
Qed.
(* The function is only run on the first elements, as many as there are arrays: what the
   others contain has no effect *)
Theorem array_max_error_partial : forall X (err : X -> datum) ins (vt std : list (list X)) rand,
  test_total vt std rand <= List.length ins ->
  array_max_error err ins vt std rand = Some (max_index (map err (firstn (test_total vt std rand) ins))).
Proof.
  intros X err ins vt std rand H. unfold array_max_error, max_error_rows. set (n := test_total vt std rand) in *.
  destruct (all_opt_some _ (map (fun i => match nth_error ins i with Some x => Some (err x) | None => None end) (seq 0 n))) as [r E].
  { intros o Ho. apply in_map_iff in Ho as (i & <- & Hi). apply in_seq in Hi.
    destruct (nth_error ins i) eqn:N; [discriminate|]. apply nth_error_None in N. lia. }
  rewrite E. do 2 f_equal. apply nth_error_same. intros i. rewrite (all_opt_nth _ _ _ i E), !nth_error_map, nth_error_seq.
  destruct (Nat.ltb_spec i n) as [L|L]; cbn [option_map].
  - rewrite <- (firstn_skipn n ins) at 1. rewrite Nat.add_0_l, nth_error_app1 by (rewrite firstn_length; lia).
    destruct (nth_error (firstn n ins) i); reflexivity.
  - rewrite (proj2 (nth_error_None (firstn n ins) i)); [reflexivity|]. rewrite firstn_length. lia.
Qed.
Theorem array_max_error_misses_refuted : forall X (err : X -> datum) ins1 ins2 (vt std : list (list X)) rand,
  List.length ins1 = test_total vt std rand ->
  array_max_error err (ins1 ++ ins2) vt std rand = Some (max_index (map err ins1)).
Proof.
  intros X err ins1 ins2 vt std rand H. rewrite array_max_error_partial by (rewrite app_length; lia).
  rewrite <- H, firstn_app, Nat.sub_diag, firstn_all, firstn_O, app_nil_r. reflexivity.
Qed.
(* with fewer elements than arrays it reads outside of the tables *)
Theorem array_max_error_outside_refuted : forall X (err : X -> datum) ins (vt std : list (list X)) rand,
  List.length ins < test_total vt std rand -> array_max_error err ins vt std rand = None.
Proof.
  intros X err ins vt std rand H. unfold array_max_error, max_error_rows. rewrite all_opt_none; [reflexivity|].
  apply in_map_iff. exists (List.length ins). split; [|apply in_seq; lia].
  rewrite (proj2 (nth_error_None ins (List.length ins))) by lia. reflexivity.
Qed.

(* ---- Cases. *)
Example array_layout_case : size_offset 4 (table_sizes [[1%Z]; [2%Z]] [] [3; 0; 5]) = Some [(2, 0); (3, 2); (0, 5); (5, 5)].
Proof. reflexivity. Qed.
Example array_inputs_case : input_table (fun x => x) (fun i => Z.of_nat (100 + i)) [[1%Z]; [2%Z]] [] [2; 0; 1] = Some [1%Z; 2%Z; 102%Z; 103%Z; 104%Z]
  /\ input_table (fun x => x) (fun i => Z.of_nat i) [] [[1%Z; 2%Z]] [2] = None.
Proof. split; reflexivity. Qed.
Definition double_all (ins : list Z) (offset len : nat) (out : nat -> datum) (i : nat) : datum :=
  if (offset <=? i) && (i <? offset + len) then match nth_error ins i with Some x => DFin (inject_Z (2 * x)) | None => DNaN end else out i.
Example array_test_case : let ins := [1%Z; 2%Z; 3%Z] in
  array_test false (stored_values ML_Binary32 CorrectlyRounded (fun x => Num (inject_Z (2 * x)))) (failure_test CorrectlyRounded) ins [] [] [2; 0; 1] (double_all ins) = Some 0%Z
  /\ array_test false (stored_values ML_Binary32 CorrectlyRounded (fun x => Num (inject_Z (3 + x)))) (failure_test CorrectlyRounded) ins [] [] [2; 0; 1] (double_all ins) = Some 1%Z
  /\ array_test true (stored_values ML_Binary32 CorrectlyRounded (fun x => Num (inject_Z (3 + x)))) (failure_test CorrectlyRounded) ins [] [] [2; 0; 1] (double_all ins) = Some 0%Z.
Proof. vm_compute. auto. Qed.
Example max_index_case : max_index [DFin 1; DNaN; DFin 3; DFin 3; DFin 2] = (DFin 3, 2).
Proof. vm_compute. reflexivity. Qed.
(* three arrays of two elements: three of the six errors are seen *)
Example array_max_error_case : array_max_error (fun x => DFin (inject_Z x)) [1%Z; 2%Z; 1%Z; 9%Z; 1%Z; 1%Z] [] [] [2; 2; 2] = Some (DFin 2, 1)
  /\ array_max_error (fun x => DFin (inject_Z x)) [1%Z] [] [] [1; 0; 0] = None.
Proof. split; vm_compute; reflexivity. Qed.

Print Assumptions array_layout.
Print Assumptions array_inputs_partial.
Print Assumptions array_standard_cases_refuted.
Print Assumptions array_expected.
Print Assumptions array_test_partial.
Print Assumptions array_break_error_refuted.
Print Assumptions array_overrun_refuted.
Print Assumptions max_index_correct.
Print Assumptions array_max_error_partial.
Print Assumptions array_max_error_misses_refuted.
Print Assumptions array_max_error_outside_refuted.
