(* Properties of numerical tables (C49, C66). *)
From Coq Require Import ZArith QArith List Bool Arith String Ascii Lia Lqa.
From Verif Require Import FpFormatModel SpecialModel TableModel.
Import ListNotations.
Open Scope nat_scope.
Open Scope list_scope.

(* ------------------------------------------------------------------ *)
(* specification                                                        *)
(* ------------------------------------------------------------------ *)
(* a table of the given dimensions *)
Inductive shape {A : Type} : list nat -> arr A -> Prop :=
| sh_leaf : forall a, shape [] (Leaf a)
| sh_node : forall d dims l, List.length l = d -> Forall (shape dims) l -> shape (d :: dims) (Node l).

(* the entry at an index tuple *)
Fixpoint entry {A : Type} (t : arr A) (idx : list nat) : option A :=
  match t, idx with
  | Leaf a, [] => Some a
  | Node l, i :: rest => match nth_error l i with Some x => entry x rest | None => None end
  | _, _ => None
  end.

Inductive in_range : list nat -> list nat -> Prop :=
| ir_nil : in_range [] []
| ir_cons : forall d dims i idx, i < d -> in_range dims idx -> in_range (d :: dims) (i :: idx).

Lemma mapM_length : forall (A B : Type) (f : A -> option B) l r, mapM f l = Some r -> List.length r = List.length l.
Proof.
  induction l as [|a l IH]; cbn; intros r H; [injection H as <-; auto|].
  destruct (f a); [|discriminate]. destruct (mapM f l) eqn:E; [|discriminate]. injection H as <-. cbn. f_equal. auto.
Qed.
Lemma mapM_nth : forall (A B : Type) (f : A -> option B) l r i a, mapM f l = Some r -> nth_error l i = Some a ->
  f a = nth_error r i.
Proof.
  induction l as [|x l IH]; cbn; intros r i a H N; [destruct i; discriminate|].
  destruct (f x) eqn:E; [|discriminate]. destruct (mapM f l) eqn:E2; [|discriminate]. injection H as <-.
  destruct i; cbn in *; [injection N as <-; auto|]. eapply IH; eauto.
Qed.
Lemma mapM_total : forall (A B : Type) (f : A -> option B) l, (forall a, In a l -> f a <> None) -> exists r, mapM f l = Some r.
Proof.
  induction l as [|a l IH]; cbn; intros H; [eauto|]. destruct (f a) eqn:E; [|exfalso; apply (H a); auto].
  destruct IH as [r ->]; [intros; apply H; auto|]. eauto.
Qed.
Lemma nth_seq : forall n i, i < n -> nth_error (seq 0 n) i = Some i.
Proof.
  intros n i H. rewrite (nth_error_nth' _ 0) by (rewrite seq_length; auto). rewrite seq_nth by auto. reflexivity.
Qed.

(* ------------------------------------------------------------------ *)
(* creation                                                             *)
(* ------------------------------------------------------------------ *)
Section Create.
Variable A : Type.
Variable pynone : A.

(* with initial data large enough in every dimension, the table created has
   the requested dimensions and the entries of the data *)
Fixpoint covers (dims : list nat) (t : arr A) : Prop :=
  match dims, t with
  | [], Leaf _ => True
  | d :: rest, Node l => d <= List.length l /\ Forall (covers rest) (firstn d l)
  | _, _ => False
  end.

Lemma firstn_nth : forall (B : Type) (l : list B) d i, i < d -> nth_error (firstn d l) i = nth_error l i.
Proof. induction l; destruct d, i; cbn; intros; auto; try lia. apply IHl. lia. Qed.

Theorem create_copies : forall dims d, dims <> [] -> covers dims d ->
  exists t, create_multi_dim_array pynone dims (Some d) = Some t /\ shape dims t
  /\ forall idx, in_range dims idx -> entry t idx = entry d idx.
Proof.
  induction dims as [|n rest IH]; intros d NE C; [congruence|].
  destruct d as [|l]; cbn in C; [contradiction|]. destruct C as [Ln C].
  assert (Cn : forall i, i < n -> exists x, nth_error l i = Some x /\ covers rest x).
  { intros i Hi. destruct (nth_error l i) as [x|] eqn:E; [|apply nth_error_None in E; lia].
    exists x. split; auto. rewrite Forall_forall in C. apply C. apply (nth_error_In _ i). rewrite firstn_nth; auto. }
  destruct rest as [|n' rest'].
  - cbn [create_multi_dim_array].
    destruct (mapM_total _ _ (fun i => item (Node l) i) (seq 0 n)) as [r E].
    { intros i Hi. apply in_seq in Hi. destruct (Cn i ltac:(lia)) as (x & Ex & _). cbn. rewrite Ex. discriminate. }
    exists (Node r). rewrite E. split; [reflexivity|].
    assert (En : forall i, i < n -> nth_error r i = nth_error l i).
    { intros i Hi. symmetry. apply (mapM_nth _ _ _ _ _ i i E). apply nth_seq; auto. }
    split.
    + constructor; [rewrite (mapM_length _ _ _ _ _ E), seq_length; auto|].
      apply Forall_forall. intros x Hx. apply In_nth_error in Hx. destruct Hx as [i Hi].
      assert (i < n). { assert (nth_error r i <> None) by congruence. apply nth_error_Some in H. rewrite (mapM_length _ _ _ _ _ E), seq_length in H. auto. }
      rewrite En in Hi by auto. destruct (Cn i H) as (y & Ey & Cy). rewrite Ey in Hi. injection Hi as ->.
      destruct x; [constructor|contradiction].
    + intros idx R. inversion R; subst. cbn. rewrite En by auto. reflexivity.
  - assert (F : forall i, i < n -> exists x t, nth_error l i = Some x
        /\ create_multi_dim_array pynone (n' :: rest') (Some x) = Some t /\ shape (n' :: rest') t
        /\ forall idx, in_range (n' :: rest') idx -> entry t idx = entry x idx).
    { intros i Hi. destruct (Cn i Hi) as (x & Ex & Cx). destruct (IH x ltac:(discriminate) Cx) as (t & H). exists x, t. split; auto. }
    set (f := fun i => match item (Node l) i with None => None | Some x => create_multi_dim_array pynone (n' :: rest') (Some x) end).
    destruct (mapM_total _ _ f (seq 0 n)) as [r E].
    { intros i Hi. apply in_seq in Hi. destruct (F i ltac:(lia)) as (x & t & Ex & Et & _). unfold f. cbn [item]. rewrite Ex, Et. discriminate. }
    exists (Node r). split; [unfold f in E; cbn [create_multi_dim_array] in *; rewrite E; reflexivity|].
    assert (En : forall i, i < n -> f i = nth_error r i).
    { intros i Hi. apply (mapM_nth _ _ _ _ _ i i E). apply nth_seq; auto. }
    assert (Lr : List.length r = n) by (rewrite (mapM_length _ _ _ _ _ E), seq_length; auto).
    split.
    + constructor; auto. apply Forall_forall. intros x Hx. apply In_nth_error in Hx. destruct Hx as [i Hi].
      assert (Hin : i < n). { assert (nth_error r i <> None) by congruence. apply nth_error_Some in H. lia. }
      destruct (F i Hin) as (y & t & Ey & Et & St & _). rewrite <- (En i Hin) in Hi. unfold f in Hi. cbn [item] in Hi. rewrite Ey, Et in Hi.
      injection Hi as <-. auto.
    + intros idx R. inversion R as [|? ? i idx' Hi R']; subst. cbn [entry].
      destruct (F i Hi) as (y & t & Ey & Et & St & Nt). rewrite <- (En i Hi). unfold f. cbn [item]. rewrite Ey, Et. auto.
Qed.

Theorem create_empty_shape : forall dims, dims <> [] ->
  exists t, create_multi_dim_array pynone dims None = Some t /\ shape dims t
  /\ forall idx, in_range dims idx -> entry t idx = Some pynone.
Proof.
  induction dims as [|n rest IH]; intros NE; [congruence|].
  destruct rest as [|n' rest'].
  - cbn [create_multi_dim_array]. eexists. split; [reflexivity|]. split.
    + constructor; [rewrite map_length, seq_length; auto|]. apply Forall_forall. intros x Hx. apply in_map_iff in Hx.
      destruct Hx as (? & <- & _). constructor.
    + intros idx R. inversion R as [|? ? i idx' Hi R']; subst. inversion R'; subst. cbn [entry].
      rewrite (map_nth_error _ _ _ (nth_seq _ _ Hi)). reflexivity.
  - destruct (IH ltac:(discriminate)) as (t & Et & St & Nt).
    destruct (mapM_total _ _ (fun _ : nat => create_multi_dim_array pynone (n' :: rest') None) (seq 0 n)) as [r E].
    { intros. rewrite Et. discriminate. }
    exists (Node r). split; [cbn [create_multi_dim_array] in *; rewrite E; reflexivity|].
    assert (Lr : List.length r = n) by (rewrite (mapM_length _ _ _ _ _ E), seq_length; auto).
    assert (En : forall i, i < n -> nth_error r i = Some t).
    { intros i Hi. rewrite <- (mapM_nth _ _ _ _ _ i i E); auto. apply nth_seq; auto. }
    split.
    + constructor; auto. apply Forall_forall. intros x Hx. apply In_nth_error in Hx. destruct Hx as [i Hi].
      assert (Hin : i < n). { assert (nth_error r i <> None) by congruence. apply nth_error_Some in H. lia. }
      rewrite En in Hi by auto. injection Hi as <-. auto.
    + intros idx R. inversion R as [|? ? i idx' Hi R']; subst. cbn [entry]. rewrite En by auto. auto.
Qed.

(* ------------------------------------------------------------------ *)
(* splitting                                                            *)
(* ------------------------------------------------------------------ *)
Lemma set_nth_spec : forall (B : Type) (l : list B) k b, k < List.length l ->
  exists l', set_nth l k b = Some l' /\ List.length l' = List.length l
  /\ nth_error l' k = Some b /\ forall i, i <> k -> nth_error l' i = nth_error l i.
Proof.
  induction l as [|x l IH]; intros k b H; [cbn in H; lia|]. destruct k; cbn.
  - exists (b :: l). split; auto. split; auto. split; auto. intros [|i]; cbn; [congruence|auto].
  - destruct (IH k b) as (l' & E & L & N & O); [cbn in H; lia|]. exists (x :: l'). rewrite E. cbn.
    split; auto. split; [f_equal; auto|]. split; auto. intros [|i] Hi; cbn; auto.
Qed.

(* the sub-tables after the loop has done the pairs `done` *)
Definition split_inv (n m : nat) (table : list (list A)) (done : list (nat * nat)) (s : list (list A)) : Prop :=
  List.length s = m /\ (forall j col, nth_error s j = Some col -> List.length col = n)
  /\ forall i j, In (i, j) done -> load2 s j i = load2 table i j.

Lemma split_loop : forall n m table, List.length table = n -> Forall (fun r => List.length r = m) table ->
  forall todo done s, (forall i j, In (i, j) todo -> i < n /\ j < m) -> split_inv n m table done s ->
  exists s', fold_left (split_step table) todo (Some s) = Some s' /\ split_inv n m table (done ++ todo) s'.
Proof.
  intros n m table Ln Lm. induction todo as [|[i j] todo IH]; intros done s B I.
  - exists s. rewrite app_nil_r. auto.
  - destruct (B i j (or_introl eq_refl)) as [Bi Bj]. destruct I as (L & Lc & D).
    cbn [fold_left split_step fst snd].
    destruct (nth_error table i) as [row|] eqn:Er; [|apply nth_error_None in Er; lia].
    assert (Lr : List.length row = m) by (rewrite Forall_forall in Lm; apply Lm; eapply nth_error_In; eauto).
    destruct (nth_error row j) as [v|] eqn:Ev; [|apply nth_error_None in Ev; lia].
    assert (El : load2 table i j = Some v) by (unfold load2; rewrite Er; auto). rewrite El.
    destruct (nth_error s j) as [col|] eqn:Ec; [|apply nth_error_None in Ec; lia].
    destruct (set_nth_spec _ col i v) as (col' & E1 & L1 & N1 & O1); [rewrite (Lc j col Ec); auto|]. rewrite E1.
    destruct (set_nth_spec _ s j col') as (s' & E2 & L2 & N2 & O2); [lia|]. rewrite E2.
    destruct (IH (done ++ [(i, j)]) s') as (s'' & E3 & I3).
    + intros; apply B; right; auto.
    + split; [lia|]. split.
      * intros k c Hk. destruct (Nat.eq_dec k j) as [-> |N]; [rewrite N2 in Hk; injection Hk as <-; rewrite L1; eauto|].
        rewrite O2 in Hk by auto. eauto.
      * intros a b Hab. apply in_app_or in Hab. destruct Hab as [Hab|[Hab|[]]].
        -- destruct (Nat.eq_dec b j) as [-> |N].
           ++ unfold load2 at 1. rewrite N2. destruct (Nat.eq_dec a i) as [-> |Na].
              ** rewrite N1. symmetry. exact El.
              ** rewrite O1 by auto. rewrite <- (D a j Hab). unfold load2. rewrite Ec. reflexivity.
           ++ unfold load2 at 1. rewrite O2 by auto. rewrite <- (D a b Hab). reflexivity.
        -- injection Hab as <- <-. unfold load2 at 1. rewrite N2, N1. auto.
    + exists s''. rewrite <- app_assoc in I3. split; auto.
Qed.

Theorem split2D_correct : forall n m table, List.length table = n -> Forall (fun r => List.length r = m) table ->
  exists subs, split2DTable pynone n m table = Some subs /\ List.length subs = m
  /\ Forall (fun c => List.length c = n) subs
  /\ forall i j, i < n -> j < m -> load2 subs j i = load2 table i j.
Proof.
  intros n m table Ln Lm.
  destruct (split_loop n m table Ln Lm (list_prod (seq 0 n) (seq 0 m)) [] (repeat (repeat pynone n) m)) as (s & E & L & Lc & D).
  - intros i j H. apply in_prod_iff in H. destruct H as [H1 H2]. apply in_seq in H1, H2. lia.
  - split; [apply repeat_length|]. split; [|intros i j []].
    intros j col H. apply nth_error_In, repeat_spec in H. subst. apply repeat_length.
  - exists s. split; [exact E|]. split; auto. split.
    + apply Forall_forall. intros c Hc. apply In_nth_error in Hc. destruct Hc as [j Hj]. eauto.
    + intros i j Hi Hj. apply D. cbn. apply in_prod_iff. rewrite !in_seq. lia.
Qed.

(* the rewritten load gives the entry the original load gives *)
Theorem expanded_load_correct : forall n m table i j, List.length table = n -> Forall (fun r => List.length r = m) table ->
  i < n -> j < m -> expanded_load pynone n m table i (Some (Z.of_nat j)) = load2 table i j.
Proof.
  intros n m table i j Ln Lm Hi Hj. destruct (split2D_correct n m table Ln Lm) as (subs & E & L & _ & N).
  unfold expanded_load. rewrite E. replace (Z.of_nat j <? 0)%Z with false by (symmetry; apply Z.ltb_ge; lia).
  replace (Z.of_nat j <? 0)%Z with false by (symmetry; apply Z.ltb_ge; lia). rewrite Nat2Z.id.
  rewrite <- (N i j Hi Hj). reflexivity.
Qed.

(* a negative constant index counts from the end, as for a Python list, and
   every other index is refused *)
Theorem expanded_load_negative : forall n m table i z, List.length table = n -> Forall (fun r => List.length r = m) table ->
  i < n -> (- Z.of_nat m <= z < 0)%Z ->
  expanded_load pynone n m table i (Some z) = load2 table i (m - Z.to_nat (- z)).
Proof.
  intros n m table i z Ln Lm Hi Hz. destruct (split2D_correct n m table Ln Lm) as (subs & E & L & _ & N).
  unfold expanded_load. rewrite E. replace (z <? 0)%Z with true by (symmetry; apply Z.ltb_lt; lia). rewrite L.
  replace (z + Z.of_nat m <? 0)%Z with false by (symmetry; apply Z.ltb_ge; lia).
  replace (Z.to_nat (z + Z.of_nat m)) with (m - Z.to_nat (- z)) by lia.
  rewrite <- (N i (m - Z.to_nat (- z)) Hi) by lia. reflexivity.
Qed.

Theorem expanded_load_out : forall n m table i z, List.length table = n -> Forall (fun r => List.length r = m) table ->
  (z < - Z.of_nat m \/ Z.of_nat m <= z)%Z -> expanded_load pynone n m table i (Some z) = None.
Proof.
  intros n m table i z Ln Lm Hz. destruct (split2D_correct n m table Ln Lm) as (subs & E & L & _ & N).
  unfold expanded_load. rewrite E. destruct (z <? 0)%Z eqn:Z0.
  - apply Z.ltb_lt in Z0. rewrite L. replace (z + Z.of_nat m <? 0)%Z with true by (symmetry; apply Z.ltb_lt; lia). reflexivity.
  - apply Z.ltb_ge in Z0. rewrite (proj2 (Z.ltb_ge z 0)) by lia.
    replace (nth_error subs (Z.to_nat z)) with (@None (list A)); [reflexivity|].
    symmetry. apply nth_error_None. lia.
Qed.
End Create.

(* ------------------------------------------------------------------ *)
(* interval of the entries                                              *)
(* ------------------------------------------------------------------ *)
Definition vmin (v : fpv) : Q := match v with Num q => q | _ => 0%Q end.

Lemma gt_num : forall a b, tri_bool (py_gt (Num a) (Num b)) = Ok (qlt b a).
Proof.
  intros. unfold py_gt, number_less_than_special_value. cbn [is_number is_nan is_minus_infty is_plus_infty to_sollya].
  destruct (is_zero (Num a)) eqn:Z; cbn [sollya_lt tri_bool of_bool].
  - unfold is_zero in Z. cbn in Z. apply Qeq_bool_iff in Z. unfold qlt.
    assert (E : Qle_bool 0 b = Qle_bool a b).
    { destruct (Qle_bool 0 b) eqn:E1, (Qle_bool a b) eqn:E2; auto.
      - apply Qle_bool_iff in E1. assert (H : (a <= b)%Q) by lra. apply Qle_bool_iff in H. congruence.
      - apply Qle_bool_iff in E2. assert (H : (0 <= b)%Q) by lra. apply Qle_bool_iff in H. congruence. }
    rewrite E. destruct (Qle_bool a b); reflexivity.
  - unfold qlt. destruct (Qle_bool a b); reflexivity.
Qed.
Lemma lt_num : forall a b, tri_bool (py_lt (Num a) (Num b)) = Ok (qlt a b).
Proof. intros a b. exact (gt_num b a). Qed.

Lemma qlt_iff : forall a b, qlt a b = true <-> (a < b)%Q.
Proof.
  intros. unfold qlt. rewrite negb_true_iff. split; intros H.
  - destruct (Qlt_le_dec a b); auto. apply Qle_bool_iff in q. congruence.
  - destruct (Qle_bool b a) eqn:E; auto. apply Qle_bool_iff in E. lra.
Qed.

Definition encloses (r : res (option fpv * option fpv)) (vs : list Q) : Prop :=
  exists lo hi, r = Ok (Some (Num lo), Some (Num hi)) /\ In lo vs /\ In hi vs
  /\ Forall (fun v => lo <= v <= hi)%Q vs.

Lemma interval_loop : forall vs lo hi seen, In lo seen -> In hi seen -> Forall (fun v => lo <= v <= hi)%Q seen ->
  encloses (fold_left interval_step (map Num vs) (Ok (Some (Num lo), Some (Num hi)))) (seen ++ vs).
Proof.
  induction vs as [|v vs IH]; intros lo hi seen I1 I2 B.
  - exists lo, hi. rewrite app_nil_r. auto.
  - cbn [map fold_left interval_step is_number negb]. rewrite gt_num, lt_num. cbv iota.
    replace (seen ++ v :: vs) with ((seen ++ [v]) ++ vs) by (rewrite <- app_assoc; reflexivity).
    set (lo' := if qlt v lo then v else lo). set (hi' := if qlt hi v then v else hi).
    replace (if qlt v lo then Some (Num v) else Some (Num lo)) with (Some (Num lo')) by (unfold lo'; destruct (qlt v lo); auto).
    replace (if qlt hi v then Some (Num v) else Some (Num hi)) with (Some (Num hi')) by (unfold hi'; destruct (qlt hi v); auto).
    apply IH.
    + unfold lo'. destruct (qlt v lo); apply in_or_app; cbn; auto.
    + unfold hi'. destruct (qlt hi v); apply in_or_app; cbn; auto.
    + assert (L : (lo' <= lo)%Q /\ (lo' <= v)%Q /\ (hi <= hi')%Q /\ (v <= hi')%Q).
      { unfold lo', hi'. destruct (qlt v lo) eqn:E1, (qlt hi v) eqn:E2; rewrite ?qlt_iff in *;
        repeat match goal with H : qlt ?a ?b = false |- _ =>
          assert (~ (a < b)%Q) by (rewrite <- qlt_iff; congruence); clear H end; repeat split; lra. }
      apply Forall_app. split; [|constructor; [lra|constructor]].
      eapply Forall_impl; [|exact B]. intros a Ha. cbn in *. lra.
Qed.

(* numeric entries: the bounds are entries, and every entry is between them *)
Theorem subset_interval_encloses : forall vs, vs <> [] -> encloses (get_subset_interval (map Num vs)) vs.
Proof.
  intros [|v vs] NE; [congruence|]. unfold get_subset_interval. cbn [map fold_left interval_step is_number negb].
  apply (interval_loop vs v v [v]); [left; auto|left; auto|]. repeat constructor; lra.
Qed.

Lemma in_product : forall dims idx, In idx (product dims) <-> in_range dims idx.
Proof.
  induction dims as [|d dims IH]; intros idx; cbn.
  - split; [intros [<- |[]]; constructor|]. intros H; inversion H; auto.
  - rewrite in_flat_map. split.
    + intros (i & Hi & H). apply in_seq in Hi. apply in_map_iff in H. destruct H as (r & <- & Hr).
      constructor; [lia|]. apply IH; auto.
    + intros H. inversion H; subst. exists i. rewrite in_seq. split; [lia|]. apply in_map. apply IH; auto.
Qed.

Lemma rec_index_entry : forall (A : Type) dims (t : arr A) idx, dims <> [] -> shape dims t -> in_range dims idx ->
  exists a, get_rec_index t idx = Some (Leaf a) /\ entry t idx = Some a.
Proof.
  induction dims as [|d dims IH]; intros t idx NE S R; [congruence|].
  inversion S as [|? ? l L F]; subst. inversion R as [|? ? i idx' Hi R']; subst.
  destruct (nth_error l i) as [x|] eqn:E; [|apply nth_error_None in E; lia].
  assert (Sx : shape dims x) by (rewrite Forall_forall in F; apply F; eapply nth_error_In; eauto).
  destruct dims as [|d' dims'].
  - inversion R'; subst. inversion Sx; subst. exists a. cbn. rewrite E. auto.
  - inversion R' as [|? ? i' idx'' Hi' R'']; subst. destruct (IH x (i' :: idx'') ltac:(discriminate) Sx R') as (a & E1 & E2).
    exists a. split; [|cbn [entry]; rewrite E; auto].
    cbn [get_rec_index item] in *. rewrite E. exact E1.
Qed.

Theorem compute_interval_encloses : forall dims t, dims <> [] -> Forall (fun d => 0 < d) dims -> shape dims t ->
  (forall idx v, entry t idx = Some v -> is_number v = true) ->
  exists lo hi, compute_interval dims t = Ok (Some (Num lo), Some (Num hi))
  /\ (exists i, in_range dims i /\ entry t i = Some (Num lo)) /\ (exists i, in_range dims i /\ entry t i = Some (Num hi))
  /\ forall idx q, in_range dims idx -> entry t idx = Some (Num q) -> (lo <= q <= hi)%Q.
Proof.
  intros dims t NE P S N. unfold compute_interval.
  destruct (mapM_total _ _ (fun idx => leaf_value (get_rec_index t idx)) (product dims)) as [vs E].
  { intros idx H. apply in_product in H. destruct (rec_index_entry _ dims t idx NE S H) as (a & -> & _). discriminate. }
  rewrite E.
  assert (X : exists qs, vs = map Num qs).
  { assert (G : forall v, In v vs -> is_number v = true).
    { intros v Hv. apply In_nth_error in Hv. destruct Hv as [k Hk].
      destruct (nth_error (product dims) k) as [idx|] eqn:Ek.
      - pose proof (mapM_nth _ _ _ _ _ _ _ E Ek) as M. rewrite Hk in M. cbn beta in M.
        apply nth_error_In, in_product in Ek. destruct (rec_index_entry _ dims t idx NE S Ek) as (a & E1 & E2).
        rewrite E1 in M. injection M as ->. eauto.
      - apply nth_error_None in Ek. rewrite <- (mapM_length _ _ _ _ _ E) in Ek. apply nth_error_None in Ek. congruence. }
    clear E. induction vs as [|v vs IH]; [exists []; auto|].
    destruct IH as [qs ->]; [intros; apply G; right; auto|]. pose proof (G v (or_introl eq_refl)) as Gv.
    destruct v; try discriminate. exists (q :: qs). auto. }
  destruct X as [qs ->].
  assert (Back : forall q, In q qs -> exists i, in_range dims i /\ entry t i = Some (Num q)).
  { intros q Hq. apply (in_map Num) in Hq. apply In_nth_error in Hq. destruct Hq as [k Hk].
    destruct (nth_error (product dims) k) as [idx|] eqn:Ek.
    - pose proof (mapM_nth _ _ _ _ _ _ _ E Ek) as M. rewrite Hk in M. cbn beta in M.
      apply nth_error_In, in_product in Ek. destruct (rec_index_entry _ dims t idx NE S Ek) as (a & E1 & E2).
      rewrite E1 in M. injection M as ->. eauto.
    - apply nth_error_None in Ek. rewrite <- (mapM_length _ _ _ _ _ E) in Ek. apply nth_error_None in Ek. congruence. }
  assert (Fwd : forall idx q, in_range dims idx -> entry t idx = Some (Num q) -> In q qs).
  { intros idx q R Eq. pose proof R as R'. apply in_product in R'. apply In_nth_error in R'. destruct R' as [k Hk].
    pose proof (mapM_nth _ _ _ _ _ _ _ E Hk) as M. cbn beta in M. destruct (rec_index_entry _ dims t idx NE S R) as (a & E1 & E2).
    rewrite E1 in M. cbn in M. rewrite E2 in Eq. injection Eq as ->. symmetry in M. apply nth_error_In in M.
    apply in_map_iff in M. destruct M as (q' & Hq' & I). injection Hq' as ->. auto. }
  assert (NEq : qs <> []).
  { intros ->. pose proof (mapM_length _ _ _ _ _ E) as L. cbn in L.
    assert (R : in_range dims (map (fun _ => 0) dims)).
    { clear - P. induction P; cbn; constructor; auto. }
    apply in_product in R. destruct (product dims); [destruct R|discriminate]. }
  destruct (subset_interval_encloses qs NEq) as (lo & hi & E1 & I1 & I2 & B).
  exists lo, hi. split; auto. split; auto. split; auto.
  intros idx q R Eq. rewrite Forall_forall in B. apply B. eauto.
Qed.

(* a special value in the table resets both bounds: entries met before it are
   no longer enclosed *)
Theorem subset_interval_special_refuted : forall a b : Q, (a < b)%Q ->
  exists lo hi, get_subset_interval [Num a; PInf; Num b] = Ok (Some (Num lo), hi) /\ (a < lo)%Q.
Proof.
  intros a b H. exists b, (Some PInf). split; auto. unfold get_subset_interval. cbn. destruct (Qeq_bool b 0); reflexivity.
Qed.

(* the interval is computed once: it is right until an entry is modified *)
Theorem get_interval_fresh : forall vs, vs <> [] ->
  let s := tstep (mkT (map Num vs) None) GetInterval in
  match cache s with Some r => encloses r vs | None => False end /\ tstep s GetInterval = s.
Proof. intros vs NE. cbn. split; auto. apply subset_interval_encloses; auto. Qed.

Theorem get_interval_stale_refuted : forall a b : Q, ~ (a == b)%Q ->
  exists s, s = fold_left tstep [GetInterval; SetItem 0 (Num b); GetInterval] (mkT [Num a] None)
  /\ content s = [Num b] /\ exists r, cache s = Some r /\ ~ encloses r [b].
Proof.
  intros a b N. eexists. split; [reflexivity|]. split; [reflexivity|]. eexists. split; [reflexivity|].
  intros (lo & hi & E & I1 & I2 & _). cbn in E. injection E as <- <-. destruct I1 as [-> |[]]. apply N. reflexivity.
Qed.

(* ------------------------------------------------------------------ *)
(* C66: text of the initializer                                         *)
(* ------------------------------------------------------------------ *)
Open Scope string_scope.
Definition is_ws (c : ascii) : bool :=
  Ascii.eqb c " " || Ascii.eqb c (ascii_of_nat 10) || Ascii.eqb c (ascii_of_nat 9).
Fixpoint strip (s : string) : string :=
  match s with "" => "" | String c r => if is_ws c then strip r else String c (strip r) end.

(* C initializer without layout *)
Fixpoint initializer (t : arr string) : string :=
  match t with
  | Leaf s => strip s
  | Node l => "{" ++ String.concat "," (map initializer l) ++ "}"
  end.

Lemma strip_app : forall a b, strip (a ++ b) = strip a ++ strip b.
Proof. induction a as [|c a IH]; intros b; cbn; auto. destruct (is_ws c); rewrite IH; auto. Qed.
Lemma app_assoc_s : forall a b c : string, (a ++ b) ++ c = a ++ (b ++ c).
Proof. induction a; intros; cbn; [auto|]. f_equal. auto. Qed.
Lemma app_nil_s : forall a : string, a ++ "" = a.
Proof. induction a; cbn; auto. f_equal; auto. Qed.

Section Text.
Variable tab : string.
Hypothesis Htab : strip tab = "".

Lemma strip_suffix : strip (row_suffix tab) = "".
Proof. unfold row_suffix. rewrite strip_app, Htab. reflexivity. Qed.

Lemma drop_last_app : forall a c, drop_last (a ++ String c "") = a.
Proof. induction a as [|x a IH]; intros c; cbn; auto. rewrite IH. destruct a; reflexivity. Qed.
Lemma last_app : forall a c, last_is_comma (a ++ String c "") = Ascii.eqb c ",".
Proof. induction a as [|x a IH]; intros c; cbn; auto. rewrite IH. destruct a; reflexivity. Qed.

(* text of a list of entries each followed by a comma *)
Fixpoint each_comma (l : list string) : string :=
  match l with [] => "" | s :: l' => strip s ++ "," ++ each_comma l' end.

(* the current line is the opening brace, or ends with a comma; it starts with
   a brace only while nothing has been written *)
Definition line_ok (code new_line : string) (done : list string) : Prop :=
  strip code ++ strip new_line = "{" ++ each_comma done
  /\ (done = [] /\ code = "" /\ new_line = "{"
      \/ done <> [] /\ (exists a, new_line = a ++ ",") /\ new_line <> ",").

Lemma each_comma_app : forall l s, each_comma (l ++ [s]) = each_comma l ++ strip s ++ ",".
Proof. induction l as [|x l IH]; intros s; cbn; [auto|]. rewrite IH, !app_assoc_s. reflexivity. Qed.

Lemma line_step_ok : forall max_len code new_line done v, line_ok code new_line done ->
  let '(code', new_line') := line_step tab max_len (code, new_line) v in line_ok code' new_line' (done ++ [v]).
Proof.
  intros max_len code new_line done v [E C]. unfold line_step.
  assert (NE : forall a : string, a ++ " " ++ v ++ "," <> ",").
  { intros [|c a]; cbn; [discriminate|]. intros X. injection X as _ X. destruct a; discriminate. }
  destruct (Nat.ltb max_len (String.length new_line + String.length v)).
  - split.
    + assert (B : strip (if starts_brace new_line then "{" ++ row_suffix tab ++ tail_of new_line else new_line) = strip new_line).
      { destruct new_line as [|c r]; cbn [starts_brace]; auto. destruct (Ascii.eqb c "{") eqn:Ec; auto.
        apply Ascii.eqb_eq in Ec. subst c. rewrite !strip_app, strip_suffix. reflexivity. }
      rewrite !strip_app, strip_suffix, B, each_comma_app, app_nil_s, E, app_assoc_s. reflexivity.
    + right. split; [destruct done; discriminate|]. split; [exists (" " ++ v); reflexivity|]. apply (NE "").
  - split.
    + rewrite each_comma_app, !strip_app, <- app_assoc_s, E, app_assoc_s. reflexivity.
    + right. split; [destruct done; discriminate|]. split; [exists (new_line ++ " " ++ v); rewrite !app_assoc_s; reflexivity|]. apply NE.
Qed.

Lemma line_loop : forall max_len vs code new_line done, line_ok code new_line done ->
  let '(code', new_line') := fold_left (line_step tab max_len) vs (code, new_line) in line_ok code' new_line' (done ++ vs).
Proof.
  intros max_len. induction vs as [|v vs IH]; intros code new_line done H.
  - rewrite app_nil_r. auto.
  - cbn [fold_left]. pose proof (line_step_ok max_len code new_line done v H) as S.
    destruct (line_step tab max_len (code, new_line) v) as [c' n'].
    specialize (IH c' n' (done ++ [v])%list S). rewrite <- app_assoc in IH. exact IH.
Qed.

Lemma concat_commas : forall l s, String.concat "," (map strip (l ++ [s])) ++ "," = each_comma (l ++ [s]).
Proof.
  induction l as [|x l IH]; intros s; cbn [app map each_comma]; [reflexivity|].
  rewrite <- IH. destruct (l ++ [s])%list eqn:E; [destruct l; discriminate|].
  cbn [map String.concat]. rewrite !app_assoc_s. reflexivity.
Qed.

Lemma app_inj_r : forall a b c : string, a ++ c = b ++ c -> a = b.
Proof.
  assert (L : forall a b : string, String.length (a ++ b) = String.length a + String.length b).
  { induction a; intros; cbn; auto. }
  induction a as [|x a IH]; intros [|y b] c H; cbn in H; auto.
  - exfalso. apply (f_equal String.length) in H. cbn in H. rewrite L in H. lia.
  - exfalso. apply (f_equal String.length) in H. cbn in H. rewrite L in H. lia.
  - injection H as -> H. f_equal. eauto.
Qed.

Lemma content1_text : forall max_len vs, strip (content1 tab max_len vs) = "{" ++ String.concat "," (map strip vs) ++ "}".
Proof.
  intros max_len vs. unfold content1.
  assert (I : line_ok "" "{" []) by (split; [reflexivity|left; auto]).
  pose proof (line_loop max_len vs "" "{" [] I) as L.
  destruct (fold_left (line_step tab max_len) vs ("", "{")) as [code new_line].
  destruct L as [E [(D & -> & ->)|(D & [a ->] & _)]]; cbn [app] in *.
  - subst vs. reflexivity.
  - rewrite last_app. cbn [Ascii.eqb Bool.eqb]. change (Ascii.eqb "," ",") with true. cbv iota. rewrite drop_last_app.
    assert (X : strip code ++ strip a = "{" ++ String.concat "," (map strip vs)).
    { apply (app_inj_r _ _ ","). destruct (exists_last D) as (l & s & ->). rewrite (app_assoc_s "{"), concat_commas, <- E.
      rewrite strip_app. change (strip ",") with ",". rewrite !app_assoc_s. reflexivity. }
    destruct (starts_brace a).
    + rewrite !strip_app. change (strip "}") with "}". rewrite <- app_assoc_s, X. rewrite app_assoc_s. reflexivity.
    + rewrite !strip_app. change (strip "}") with "}". change (strip nl) with "". cbn [append].
      rewrite <- app_assoc_s, X. rewrite app_assoc_s. reflexivity.
Qed.

Lemma strip_concat : forall sep l, strip (String.concat sep l) = String.concat (strip sep) (map strip l).
Proof.
  intros sep. induction l as [|x l IH]; [reflexivity|]. destruct l as [|y l]; [reflexivity|].
  change (String.concat sep (x :: y :: l)) with (x ++ sep ++ String.concat sep (y :: l)).
  rewrite !strip_app, IH. reflexivity.
Qed.

Lemma arr_rec2 : forall (P : arr string -> Prop), (forall a, P (Leaf a)) -> (forall l, Forall P l -> P (Node l)) -> forall t, P t.
Proof.
  intros P H1 H2. fix IH 1. intros [a|l]; [apply H1|]. apply H2. induction l; constructor; auto.
Qed.

(* up to layout, the text is the initializer listing the entries in order,
   whatever the line length *)
Theorem table_content_text : forall dims max_len t, dims <> [] -> shape dims t ->
  exists s, get_table_content tab max_len dims t = Some s /\ strip s = initializer t.
Proof.
  induction dims as [|d dims IH]; intros max_len t NE S; [congruence|].
  inversion S as [|? ? l L F]; subst. destruct dims as [|d' dims'].
  - assert (X : exists vs, mapM leaf_str l = Some vs /\ map strip vs = map initializer l).
    { clear - F. induction F as [|x l Hx F IHl]; [exists []; auto|]. destruct IHl as (vs & E & M).
      inversion Hx; subst. exists (a :: vs). cbn. rewrite E. split; auto. cbn. f_equal. auto. }
    destruct X as (vs & E & M). exists (content1 tab max_len vs). cbn [get_table_content]. rewrite E.
    split; auto. rewrite content1_text, M. reflexivity.
  - assert (X : exists ls, mapM (get_table_content tab 80 (d' :: dims')) l = Some ls /\ map strip ls = map initializer l).
    { clear S NE. induction F as [|x l Hx F IHl]; [exists []; auto|]. destruct IHl as (ls & E & M).
      destruct (IH 80 x ltac:(discriminate) Hx) as (s & Es & Ts). exists (s :: ls).
      cbn [mapM]. rewrite Es, E. split; auto. cbn [map]. f_equal; auto. }
    destruct X as (ls & E & M). eexists. split; [cbn [get_table_content] in *; rewrite E; reflexivity|].
    rewrite !strip_app, strip_concat, strip_app, strip_suffix, M. cbn [initializer].
    change (strip "{") with "{". change (strip ",") with ",". change (strip nl) with "". change (strip "}") with "}".
    rewrite (app_nil_s ","). reflexivity.
Qed.
End Text.

Example table_case :
  let t := Node [Node [Leaf "1"; Leaf "2.5"]; Node [Leaf "-3"; Leaf "0x4"]] in
  shape [2; 2] t
  /\ option_map strip (get_table_content "    " 3 [2; 2] t) = Some "{{1,2.5},{-3,0x4}}"
  /\ content1 "  " 6 ["1"; "2"; "3"; "4"] = ("{" ++ nl ++ "   1, 2," ++ nl ++ "   3, 4" ++ nl ++ "}").
Proof. cbn zeta. split; [repeat constructor|]. split; vm_compute; reflexivity. Qed.

Example split_case :
  split2DTable 0 3 2 [[1; 2]; [3; 4]; [5; 6]] = Some [[1; 3; 5]; [2; 4; 6]]
  /\ expanded_load 0 3 2 [[1; 2]; [3; 4]; [5; 6]] 2 (Some 1%Z) = Some 6
  /\ create_multi_dim_array 0 [2; 2] (Some (Node [Node [Leaf 1; Leaf 2; Leaf 3]; Node [Leaf 4; Leaf 5; Leaf 6]; Leaf 9]))
     = Some (Node [Node [Leaf 1; Leaf 2]; Node [Leaf 4; Leaf 5]])
  /\ compute_interval [2; 2] (Node [Node [Leaf (Num 3); Leaf (Num 1)]; Node [Leaf (Num 7); Leaf (Num 2)]])
     = Ok (Some (Num 1), Some (Num 7)).
Proof. repeat split; vm_compute; reflexivity. Qed.

(* the last column by index -1 *)
Example expanded_load_negative_example :
  expanded_load 0 2 3 [[1; 2; 3]; [4; 5; 6]] 1 (Some (-1)%Z) = Some 6 /\
  expanded_load 0 2 3 [[1; 2; 3]; [4; 5; 6]] 1 (Some (-4)%Z) = None.
Proof. split; reflexivity. Qed.

Print Assumptions create_copies.
Print Assumptions create_empty_shape.
Print Assumptions split2D_correct.
Print Assumptions expanded_load_correct.
Print Assumptions expanded_load_negative.
Print Assumptions expanded_load_out.
Print Assumptions subset_interval_encloses.
Print Assumptions compute_interval_encloses.
Print Assumptions subset_interval_special_refuted.
Print Assumptions get_interval_fresh.
Print Assumptions get_interval_stale_refuted.
Print Assumptions table_content_text.
