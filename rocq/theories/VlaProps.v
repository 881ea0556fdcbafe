(* Properties of the vector-length agnostic functions. *)
From Coq Require Import ZArith List Bool Lia.
From Verif Require Import VecModel VecSpec VecProofs VecLanes VecProps VecProps2 VlaModel VlaSpec.
Import ListNotations.
Open Scope Z_scope.

Lemma int32_small : forall z, - 2 ^ 31 <= z < 2 ^ 31 -> int32 z = z.
Proof. intros z H. unfold int32. rewrite Z.mod_small; lia. Qed.

Lemma all_some_map : forall (f : Z -> option Z) (g : Z -> Z) l,
  (forall x, In x l -> f x = Some (g x)) -> all_some (map f l) = Some (map g l).
Proof.
  intros f g l. induction l as [|x l IH]; intros H; [reflexivity|].
  cbn [map all_some]. rewrite (H x (or_introl eq_refl)), IH; [reflexivity|].
  intros y Hy. apply H. right. exact Hy.
Qed.

Lemma in_load : forall m a k x, In x (load_list m a k) -> exists j, 0 <= j < Z.of_nat k /\ x = m (a + j).
Proof.
  intros m a k x H. unfold load_list in H. apply in_map_iff in H as (j & <- & Hj).
  apply in_seq in Hj. exists (Z.of_nat j). split; [lia|reflexivity].
Qed.

Lemma stored : forall m dst a k (g : Z -> Z) b,
  store_list m dst (map g (load_list m a k)) b =
    if (dst <=? b) && (b <? dst + Z.of_nat k) then g (m (a + (b - dst))) else m b.
Proof.
  intros m dst a k g b. rewrite store_list_spec.
  assert (L : length (map g (load_list m a k)) = k) by (unfold load_list; rewrite !map_length, seq_length; reflexivity).
  rewrite L. destruct (Z.leb_spec dst b), (Z.ltb_spec b (dst + Z.of_nat k)); cbn [andb]; try reflexivity.
  unfold load_list. rewrite map_map.
  rewrite (nth_indep _ 0 (g (m (a + Z.of_nat 0)))) by (rewrite map_length, seq_length; lia).
  rewrite (map_nth (fun j => g (m (a + Z.of_nat j))) (seq 0 k) 0%nat).
  rewrite seq_nth by lia. f_equal. f_equal. lia.
Qed.

(* the first [i] elements done *)
Definition partly (g : Z -> Z) (dst src i : Z) (m : mem) : mem :=
  fun a => if (dst <=? a) && (a <? dst + i) then g (m (src + (a - dst))) else m a.

Section Loop.
  Variables (get : Z -> Z) (lane : Z -> option Z) (g : Z -> Z) (dst src n : Z) (m0 : mem).
  Hypothesis Hget : forall a, 0 < a < 2 ^ 31 -> 1 <= get a <= a.
  Hypothesis Hn : 0 <= n < 2 ^ 31.
  Hypothesis Hsafe : forward_safe dst src n.
  Hypothesis Hlane : forall i, 0 <= i < n -> lane (m0 (src + i)) = Some (g (m0 (src + i))).

  Lemma loop_inv : forall fuel i m, 0 <= i <= n -> (Z.to_nat (n - i) < fuel)%nat ->
    (forall a, m a = partly g dst src i m0 a) ->
    exists m' k, vla_loop fuel get lane dst src (n - i) i m = Some (m', k)
      /\ (k <= Z.to_nat (n - i))%nat /\ forall a, m' a = partly g dst src n m0 a.
  Proof.
    induction fuel as [|fuel IH]; intros i m Hi Hf Hm; [lia|].
    cbn [vla_loop]. destruct (Z.gtb_spec (n - i) 0) as [Hp|Hz].
    - pose proof (Hget (n - i) ltac:(lia)) as Hl. cbv zeta. set (l := get (n - i)) in *.
      assert (Hread : forall j, 0 <= j < l -> m (src + i + j) = m0 (src + (i + j))).
      { intros j Hj. rewrite Hm. unfold partly.
        replace (src + i + j) with (src + (i + j)) by lia.
        destruct (Z.leb_spec dst (src + (i + j))), (Z.ltb_spec (src + (i + j)) (dst + i)); cbn [andb]; try reflexivity.
        destruct Hsafe; lia. }
      rewrite (all_some_map lane g).
      2: { intros x Hx. apply in_load in Hx as (j & Hj & ->). rewrite Hread by lia. apply Hlane. lia. }
      rewrite (int32_small l) by lia. rewrite (int32_small (n - i - l)) by lia. rewrite (int32_small (i + l)) by lia.
      replace (n - i - l) with (n - (i + l)) by lia.
      destruct (IH (i + l) (store_list m (dst + i) (map g (load_list m (src + i) (Z.to_nat l))))) as (m' & k & E & Hk & Hm'); [lia|lia| |].
      + intros a. rewrite stored. rewrite Z2Nat.id by lia.
        destruct (Z.leb_spec (dst + i) a), (Z.ltb_spec a (dst + i + l)); cbn [andb].
        * rewrite Hread by lia. unfold partly.
          destruct (Z.leb_spec dst a), (Z.ltb_spec a (dst + (i + l))); cbn [andb]; try lia.
          do 2 f_equal. lia.
        * rewrite Hm. unfold partly.
          destruct (Z.leb_spec dst a), (Z.ltb_spec a (dst + i)), (Z.ltb_spec a (dst + (i + l))); cbn [andb]; try lia; reflexivity.
        * rewrite Hm. unfold partly.
          destruct (Z.leb_spec dst a), (Z.ltb_spec a (dst + i)), (Z.ltb_spec a (dst + (i + l))); cbn [andb]; try lia; reflexivity.
        * lia.
      + rewrite E. exists m', (S k). split; [reflexivity|]. split; [lia|exact Hm'].
    - exists m, O. split; [reflexivity|]. split; [lia|]. replace n with i by lia. exact Hm.
  Qed.

  Lemma loop_done : forall fuel, (Z.to_nat n < fuel)%nat ->
    exists m' k, vla_loop fuel get lane dst src (int32 n) 0 m0 = Some (m', k)
      /\ (k <= Z.to_nat n)%nat /\ forall a, m' a = partly g dst src n m0 a.
  Proof.
    intros fuel Hf. rewrite int32_small by lia.
    destruct (loop_inv fuel 0 m0) as (m' & k & E & Hk & Hm); [lia|lia| |].
    - intros a. unfold partly. destruct (Z.leb_spec dst a), (Z.ltb_spec a (dst + 0)); cbn [andb]; try reflexivity; lia.
    - replace (n - 0) with n in E, Hk by lia. exists m', k. auto.
  Qed.
End Loop.

(* vsetvl on a positive length *)
Lemma vsetvl_range : forall VLEN get avl e g, vsetvl VLEN get -> 0 < capacity VLEN e g -> 0 < avl ->
  1 <= get avl e g <= avl /\ get avl e g <= capacity VLEN e g.
Proof.
  intros VLEN get avl e g H Hc Ha. destruct (H avl e g ltac:(lia)) as (H1 & H2 & H3).
  destruct (Z.le_gt_cases avl (capacity VLEN e g)) as [C|C]; [rewrite H1 by lia; lia|].
  destruct (Z.lt_ge_cases avl (2 * capacity VLEN e g)) as [D|D].
  - pose proof (H2 (conj C D)) as K.
    assert (1 <= (avl + 1) / 2) by (apply Z.div_le_lower_bound; lia). lia.
  - rewrite H3 by lia. lia.
Qed.

Lemma cap_pos : forall VLEN e g, 0 < e -> e <= VLEN * g -> 0 < capacity VLEN e g.
Proof. intros. unfold capacity. apply Z.div_str_pos. lia. Qed.

(* ---- Every element once, whatever the length of the registers. *)
(* Whatever the choice of vsetvl within its specification, for every function on the
   elements: the call returns after at most n iterations with the result of each element at
   its place and nothing else written, for fewer than 2^31 elements and a destination that
   does not start inside the source *)
Theorem vla_elements_partial : forall VLEN get psize group lane (f : Z -> Z) dst src n m,
  vsetvl VLEN get -> 0 < psize <= VLEN -> 0 <= n < 2 ^ 31 -> forward_safe dst src n ->
  (forall i, 0 <= i < n -> lane (m (src + i)) = Some (f (m (src + i)))) ->
  exists m' k, vla_function (S (Z.to_nat n)) get psize group lane dst src n m = Some (m', k)
    /\ (k <= Z.to_nat n)%nat /\ mapped (fun x y => y = f x) dst src n m m'.
Proof.
  intros VLEN get psize group lane f dst src n m Hv Hp Hn Hs Hl. unfold vla_function.
  destruct (loop_done (fun a => get a (vl_elt_size psize group) (vl_group_size psize group)) lane f dst src n m) with (fuel := S (Z.to_nat n))
    as (m' & k & E & Hk & Hm).
  - intros a Ha. apply (vsetvl_range VLEN); [exact Hv| |lia]. apply cap_pos; unfold vl_elt_size, vl_group_size; lia.
  - lia.
  - exact Hs.
  - exact Hl.
  - lia.
  - exists m', k. split; [exact E|]. split; [exact Hk|]. split.
    + intros i Hi. rewrite Hm. unfold partly.
      destruct (Z.leb_spec dst (dst + i)), (Z.ltb_spec (dst + i) (dst + n)); cbn [andb]; try lia.
      do 2 f_equal. lia.
    + intros a Ha. rewrite Hm. unfold partly.
      destruct (Z.leb_spec dst a), (Z.ltb_spec a (dst + n)); cbn [andb]; try reflexivity. lia.
Qed.

(* With the scalar scheme: elements on which every validity condition holds receive the
   value of the scalar function *)
Theorem vla_scalar_partial : forall VLEN get psize group ops arg s (f : Z -> Z) dst src n m,
  vsetvl VLEN get -> 0 < psize <= VLEN -> 0 <= n < 2 ^ 31 -> forward_safe dst src n ->
  branchy s = true -> ~ In arg (assigned s) ->
  (forall i, 0 <= i < n -> computes ops s (one_arg arg (m (src + i))) (f (m (src + i)))) ->
  (forall i, 0 <= i < n -> all_valid ops arg (masks (fst (extract s []))) (m (src + i))) ->
  exists m' k, vla_function (S (Z.to_nat n)) get psize group (lane_result ops arg (vectorize (one_input arg) s)) dst src n m = Some (m', k)
    /\ mapped (fun x y => computes ops s (one_arg arg x) y) dst src n m m'.
Proof.
  intros VLEN get psize group ops arg s f dst src n m Hv Hp Hn Hs Hb Ha Hc Hm.
  destruct (vla_elements_partial VLEN get psize group (lane_result ops arg (vectorize (one_input arg) s)) f dst src n m Hv Hp Hn Hs)
    as (m' & k & E & _ & M1 & M2).
  - intros i Hi. unfold lane_result, vectorize.
    destruct (vector_path_sound_partial ops (one_input arg) s (one_arg arg (m (src + i))) (f (m (src + i)))) as (e & El & Ev).
    + exact Hb.
    + intros v Hv'. unfold one_input in Hv'. apply Nat.eqb_eq in Hv'. subst v. exact Ha.
    + intros v y Hy. unfold one_arg in Hy. unfold one_input. destruct (Nat.eqb v arg); [reflexivity|discriminate].
    + apply Hc. exact Hi.
    + apply Hm. exact Hi.
    + cbn [v_path]. rewrite El. cbn [option_map]. exact Ev.
  - exists m', k. split; [exact E|]. split; [|exact M2].
    intros i Hi. rewrite (M1 i Hi). apply Hc. exact Hi.
Qed.

(* ---- Refuted. *)
(* The validity mask is dropped: an element out of the likely path receives the value of the
   likely path.  Whatever the condition (true on x), the values of the two branches *)
Definition two_paths (o : nat) (arg : nat) (rare usual : Z) : stmt :=
  SIf (SSeq []) (EOp o [EVar arg]) (Some false) (SReturn (ECst rare)) (Some (SReturn (ECst usual))).
Theorem vla_mask_dropped_refuted : forall VLEN get psize group ops o arg rare usual dst src n m y,
  vsetvl VLEN get -> 0 < psize <= VLEN -> 0 <= n < 2 ^ 31 -> forward_safe dst src n ->
  (forall i, 0 <= i < n -> ops o [m (src + i)] = Some y) -> truth y = true ->
  (forall i, 0 <= i < n -> computes ops (two_paths o arg rare usual) (one_arg arg (m (src + i))) rare)
  /\ exists m' k, vla_function (S (Z.to_nat n)) get psize group (lane_result ops arg (vectorize (one_input arg) (two_paths o arg rare usual))) dst src n m = Some (m', k)
    /\ forall i, 0 <= i < n -> m' (dst + i) = usual.
Proof.
  intros VLEN get psize group ops o arg rare usual dst src n m y Hv Hp Hn Hs Ho Hy. split.
  - intros i Hi. unfold computes, two_paths.
    assert (Ec : eval ops (one_arg arg (m (src + i))) (EOp o [EVar arg]) = Some y).
    { cbn [eval map all_some]. unfold one_arg at 1. rewrite Nat.eqb_refl. cbn [all_some]. rewrite (Ho i Hi). reflexivity. }
    apply (run_then ops _ (one_arg arg (m (src + i))) _ _ _ _ _ y); [apply run_nil|exact Ec|exact Hy|apply run_return; reflexivity].
  - destruct (vla_elements_partial VLEN get psize group (lane_result ops arg (vectorize (one_input arg) (two_paths o arg rare usual))) (fun _ => usual) dst src n m Hv Hp Hn Hs)
      as (m' & k & E & _ & M & _); [reflexivity|].
    exists m', k. split; [exact E|]. intros i Hi. exact (M i Hi).
Qed.

(* From 2^31 elements on, the length held by the loop is negative: nothing is computed *)
Theorem vla_long_refuted : forall get psize group lane dst src n m fuel,
  2 ^ 31 <= n < 2 ^ 32 -> vla_function (S fuel) get psize group lane dst src n m = Some (m, O).
Proof.
  intros get psize group lane dst src n m fuel Hn. unfold vla_function. cbn [vla_loop].
  assert (E : int32 n = n - 2 ^ 32).
  { unfold int32. replace (n + 2 ^ 31) with (n - 2 ^ 31 + 1 * 2 ^ 32) by lia.
    rewrite Z.mod_add by lia. rewrite Z.mod_small by lia. lia. }
  rewrite E. destruct (Z.gtb_spec (n - 2 ^ 32) 0); [lia|reflexivity].
Qed.

(* The group size does not reach vsetvl: whatever the group, a call on n elements runs at
   least n / (VLEN / psize) iterations, while a group of g registers holds g times as many
   elements *)
Lemma loop_trips : forall (get : Z -> Z) lane dst src c fuel rem off m m' k, 0 < c -> c < 2 ^ 31 ->
  (forall a, 0 < a -> 1 <= get a <= a /\ get a <= c) -> rem < 2 ^ 31 ->
  vla_loop fuel get lane dst src rem off m = Some (m', k) -> rem <= c * Z.of_nat k.
Proof.
  intros get lane dst src c fuel. induction fuel as [|fuel IH]; intros rem off m m' k Hc Hc' Hg Hr H; [discriminate|].
  cbn [vla_loop] in H. destruct (Z.gtb_spec rem 0) as [Hp|Hz].
  - pose proof (Hg rem ltac:(lia)) as [G1 G2]. cbv zeta in H. set (l := get rem) in *.
    destruct (all_some _) as [r|]; [|discriminate].
    destruct (vla_loop fuel _ _ _ _ _ _ _) as [[m1 k1]|] eqn:E; [|discriminate]. injection H as <- <-.
    rewrite (int32_small l) in E by lia. rewrite (int32_small (rem - l)) in E by lia.
    apply IH in E; [rewrite Nat2Z.inj_succ, Z.mul_succ_r; lia|assumption|assumption|assumption|lia].
  - injection H as <- <-. lia.
Qed.
Theorem vla_group_trips_refuted : forall VLEN get psize group lane dst src n m fuel m' k,
  vsetvl VLEN get -> 0 < psize <= VLEN -> VLEN < 2 ^ 31 -> 0 <= n < 2 ^ 31 ->
  vla_function fuel get psize group lane dst src n m = Some (m', k) ->
  n <= capacity VLEN psize 1 * Z.of_nat k.
Proof.
  intros VLEN get psize group lane dst src n m fuel m' k Hv Hp HV Hn H. unfold vla_function in H.
  rewrite int32_small in H by lia.
  pose proof (cap_pos VLEN psize 1 ltac:(lia) ltac:(lia)) as Hc.
  assert (Hc' : capacity VLEN psize 1 < 2 ^ 31).
  { unfold capacity. apply Z.le_lt_trans with VLEN; [apply Z.div_le_upper_bound; [lia|]; rewrite Z.mul_1_r; nia|lia]. }
  apply (loop_trips (fun a => get a psize 1) lane dst src (capacity VLEN psize 1) fuel n 0 m m' k Hc Hc'); [|lia|exact H].
  intros a Ha. apply (vsetvl_range VLEN get a psize 1 Hv Hc Ha).
Qed.

(* The lanes asked for fit every type of at most group * psize bits... *)
Theorem vla_lanes_fit : forall VLEN get psize group e avl,
  vsetvl VLEN get -> 0 < psize <= VLEN -> 0 < e -> e <= group * psize -> 0 < avl ->
  get avl (vl_elt_size psize group) (vl_group_size psize group) <= capacity VLEN e group.
Proof.
  intros VLEN get psize group e avl Hv Hp He Hg Ha.
  pose proof (cap_pos VLEN psize 1 ltac:(lia) ltac:(lia)) as Hc.
  pose proof (vsetvl_range VLEN get avl psize 1 Hv Hc Ha) as [_ K].
  unfold vl_elt_size, vl_group_size. refine (Z.le_trans _ _ _ K _). unfold capacity.
  rewrite Z.mul_1_r. apply Z.div_le_lower_bound; [lia|].
  pose proof (Z.mul_div_le VLEN psize ltac:(lia)) as D.
  assert (0 < group) by nia. pose proof (Z.div_pos VLEN psize ltac:(lia) ltac:(lia)).
  apply Z.le_trans with (group * psize * (VLEN / psize)); [nia|]. nia.
Qed.
(* ... and not a type of twice the size in the same group: on every array long enough, a
   64-bit intermediate of a 32-bit function holds half of the lanes asked for *)
Theorem vla_wide_lanes_refuted : forall VLEN get avl,
  vsetvl VLEN get -> 64 <= VLEN -> 2 * (VLEN / 32) <= avl ->
  capacity VLEN 64 1 < get avl (vl_elt_size 32 1) (vl_group_size 32 1).
Proof.
  intros VLEN get avl Hv HV Ha. unfold vl_elt_size, vl_group_size.
  assert (E : forall e, capacity VLEN e 1 = VLEN / e) by (intros e; unfold capacity; rewrite Z.mul_1_r; reflexivity).
  assert (0 <= VLEN / 32) by (apply Z.div_pos; lia).
  destruct (Hv avl 32 1 ltac:(lia)) as (_ & _ & H3). rewrite E in H3. rewrite H3 by lia. rewrite E.
  enough (VLEN / 64 + 1 <= VLEN / 32) by lia.
  apply Z.div_le_lower_bound; [lia|].
  pose proof (Z.mul_div_le VLEN 64 ltac:(lia)). assert (1 <= VLEN / 64) by (apply Z.div_le_lower_bound; lia). lia.
Qed.

(* With a destination one element after the source, the result depends on the length of the
   registers: two elements, processed together or one after the other *)
Theorem vla_overlap_refuted : forall src m (f : Z -> Z), f (f (m src)) <> f (m (src + 1)) ->
  exists m1 m2 : mem,
    option_map fst (vla_function 3 (fun a _ _ => Z.min a 2) 32 1 (fun x => Some (f x)) (src + 1) src 2 m) = Some m1
    /\ option_map fst (vla_function 3 (fun a _ _ => Z.min a 1) 32 1 (fun x => Some (f x)) (src + 1) src 2 m) = Some m2
    /\ m1 (src + 2) <> m2 (src + 2).
Proof.
  intros src m f H. unfold vla_function. rewrite int32_small by lia.
  change (vla_loop 3 (fun a => Z.min a 2) (fun x => Some (f x)) (src + 1) src 2 0 m)
    with (Some (store_list m (src + 1 + 0) [f (m (src + 0 + 0)); f (m (src + 0 + 1))], 1%nat)).
  change (vla_loop 3 (fun a => Z.min a 1) (fun x => Some (f x)) (src + 1) src 2 0 m)
    with (Some (store_list (store_list m (src + 1 + 0) [f (m (src + 0 + 0))]) (src + 1 + 1)
                 [f (store_list m (src + 1 + 0) [f (m (src + 0 + 0))] (src + 1 + 0))], 2%nat)).
  cbn [option_map fst]. eexists; eexists; split; [reflexivity|split; [reflexivity|]].
  cbn [store_list]. unfold store.
  repeat (match goal with |- context [(?a =? ?b)] => destruct (Z.eqb_spec a b); [|]; try lia end).
  replace (src + 0 + 1) with (src + 1) by lia. replace (src + 0 + 0) with src by lia. congruence.
Qed.

(* ---- Indexed loads. *)
(* the byte offset of element i, when the index has the size of the elements and the offset
   fits the index *)
Theorem byte_index_correct : forall size i, 0 <= i -> 0 < size -> element_offset size i < 2 ^ size ->
  byte_index size size i = element_offset size i.
Proof.
  intros size i Hi Hs Hf. unfold byte_index, element_offset in *. apply Z.mod_small.
  split; [|exact Hf]. apply Z.mul_nonneg_nonneg; [exact Hi|]. apply Z.div_pos; lia.
Qed.
(* with any other size of elements, every element but the first is looked for elsewhere *)
Theorem byte_index_refuted : forall isize tsize i, 8 <= isize -> 8 <= tsize -> isize / 8 <> tsize / 8 ->
  0 < i -> i * (isize / 8) < 2 ^ isize -> byte_index isize tsize i <> element_offset tsize i.
Proof.
  intros isize tsize i Hi Ht Hd Hp Hf. unfold byte_index, element_offset.
  pose proof (Z.div_pos isize 8 ltac:(lia) ltac:(lia)).
  rewrite Z.mod_small by nia. intros E. apply Hd. nia.
Qed.
(* and past 2^size bytes the index wraps around *)
Theorem byte_index_wraps_refuted : forall size i, 8 <= size -> 2 ^ size <= element_offset size i ->
  byte_index size size i < element_offset size i.
Proof.
  intros size i Hs Hw. unfold byte_index, element_offset in *.
  pose proof (Z.mod_pos_bound (i * (size / 8)) (2 ^ size) ltac:(apply Z.pow_pos_nonneg; lia)). lia.
Qed.

(* ---- Cases. *)
Definition get_min (VLEN : Z) (a e g : Z) : Z := Z.min a (capacity VLEN e g).
Lemma get_min_rule : forall VLEN, (forall e g, 0 <= capacity VLEN e g) -> vsetvl VLEN (get_min VLEN).
Proof.
  intros VLEN Hc avl e g Ha. unfold get_min. pose proof (Hc e g).
  split; [intros; lia|]. split; [|intros; lia].
  intros K. rewrite Z.min_r by lia. split; [|lia].
  enough ((avl + 1) / 2 < capacity VLEN e g + 1) by lia. apply Z.div_lt_upper_bound; lia.
Qed.
(* ten elements in registers of four, at the source itself *)
Example vla_ten :
  match vla_function 11 (get_min 128) 32 1 (fun x => Some (x * x)) 100 100 10 (fun a => a - 100) with
  | Some (m, k) => map m [99; 100; 101; 105; 109; 110] = [-1; 0; 1; 25; 81; 10] /\ k = 3%nat
  | None => False
  end.
Proof. split; reflexivity. Qed.
(* the scheme "return -1 when the operation 3 of x holds, 7 otherwise" on three elements *)
Example vla_mask_case :
  match vla_function 4 (get_min 128) 32 1
          (lane_result (fun _ l => match l with [x] => Some (b2z (x <? 0)) | _ => None end) 0
             (vectorize (one_input 0) (two_paths 3 0 (-1) 7))) 50 10 3 (fun a => if a =? 11 then -5 else 5) with
  | Some (m, _) => map m [50; 51; 52; 53] = [7; 7; 7; 5]
  | None => False
  end.
Proof. reflexivity. Qed.
Example vla_long_case : option_map snd (vla_function 5 (get_min 128) 32 1 (fun x => Some x) 0 0 (2 ^ 31) (fun a => a)) = Some O.
Proof. reflexivity. Qed.
Example vla_fit_case : capacity 128 64 2 = 4 /\ get_min 128 9 32 1 = 4 /\ capacity 128 64 1 = 2.
Proof. repeat split. Qed.
Example byte_index_case : byte_index 32 32 5 = 20 /\ element_offset 64 5 = 40 /\ byte_index 32 64 5 = 20
  /\ byte_index 32 32 (2 ^ 30) = 0.
Proof. repeat split. Qed.

Print Assumptions vla_elements_partial.
Print Assumptions vla_scalar_partial.
Print Assumptions vla_mask_dropped_refuted.
Print Assumptions vla_long_refuted.
Print Assumptions vla_group_trips_refuted.
Print Assumptions vla_lanes_fit.
Print Assumptions vla_wide_lanes_refuted.
Print Assumptions vla_overlap_refuted.
Print Assumptions byte_index_correct.
Print Assumptions byte_index_refuted.
Print Assumptions byte_index_wraps_refuted.
