(** Row extraction and the complete multiplier-array scheme. *)
From Coq Require Import ZArith List Bool Lia.
From Verif Require Import BitHeapModel BitHeapSpec BitHeapProofs BitHeapProd.
Import ListNotations.
Open Scope Z_scope.

Lemma pop_bit_spec w h ob h' : wf_heap h -> pop_bit w h = (ob, h') ->
  wf_heap h' /\
  (forall k, bit_count k h' = (bit_count k h - if (k =? w)%Z then 1 else 0)%nat) /\
  (forall k l, In (k, l) h' -> exists l', In (k, l') h) /\
  total_bits h = (opt_len ob + total_bits h')%nat /\
  opt_len ob = Nat.min 1 (bit_count w h) /\
  forall env base, heap_val env base h = heap_val env base h' + opt_val env ob * 2 ^ (w - base).
Proof.
  intros Wh H. unfold pop_bit in H. destruct (pop_bits w 1 h) as [bl h1] eqn:E.
  injection H as <- <-.
  pose proof (pop_bits_length _ _ _ _ _ E) as Hl.
  pose proof (pop_bits_total _ _ _ _ _ E) as Ht.
  pose proof (pop_bits_count_eq _ _ _ _ _ E Wh) as Hc.
  assert (Hlen : opt_len (hd_error bl) = length bl) by (destruct bl as [|? [|? ?]]; cbn [hd_error opt_len length] in *; lia).
  refine (conj _ (conj _ (conj _ (conj _ (conj _ _))))).
  - eapply pop_bits_wf; eauto.
  - intros k. destruct (Z.eqb_spec k w).
    + subst; lia.
    + rewrite (pop_bits_count_neq _ _ _ _ _ _ E); auto; lia.
  - intros k l. eapply pop_bits_in; eauto.
  - lia.
  - lia.
  - intros env base. rewrite (pop_bits_val _ _ _ _ _ _ _ E).
    destruct bl as [|b [|? ?]]; cbn [hd_error opt_val bits_sum]; [ring|ring|cbn [length] in Hl; lia].
Qed.

Lemma pop_row_spec n : forall h lo row h', wf_heap h -> pop_row h lo n = (row, h') ->
  wf_heap h' /\
  (forall k, bit_count k h' = (bit_count k h - if (lo <=? k)%Z && (k <? lo + Z.of_nat n)%Z then 1 else 0)%nat) /\
  (forall k l, In (k, l) h' -> exists l', In (k, l') h) /\
  (total_bits h' + (if (0 <? n)%nat then Nat.min 1 (bit_count lo h) else 0) <= total_bits h)%nat /\
  length row = n /\
  forall env base, base <= lo ->
    heap_val env base h = heap_val env base h' + row_val env row * 2 ^ (lo - base).
Proof.
  induction n as [|n IH]; intros h lo row h' Wh H; cbn [pop_row] in H.
  - injection H as <- <-. refine (conj _ (conj _ (conj _ (conj _ (conj _ _))))); auto.
    + intros k. destruct (Z.leb_spec lo k), (Z.ltb_spec k (lo + Z.of_nat 0)); simpl; lia.
    + eauto.
    + simpl; lia.
    + intros; cbn [row_val]; lia.
  - destruct (pop_bit lo h) as [ob h1] eqn:E1. destruct (pop_row h1 (lo + 1) n) as [row1 h2] eqn:E2.
    injection H as <- <-.
    destruct (pop_bit_spec _ _ _ _ Wh E1) as (W1 & C1 & I1 & T1 & L1 & V1).
    destruct (IH _ _ _ _ W1 E2) as (W2 & C2 & I2 & T2 & L2 & V2).
    refine (conj W2 (conj _ (conj _ (conj _ (conj _ _))))).
    + intros k. rewrite C2, C1.
      destruct (Z.leb_spec lo k), (Z.leb_spec (lo + 1) k), (Z.eqb_spec k lo),
        (Z.ltb_spec k (lo + Z.of_nat (S n))), (Z.ltb_spec k (lo + 1 + Z.of_nat n)); cbn [andb]; lia.
    + intros k l Hin. destruct (I2 _ _ Hin) as [l1 Hin1]. eauto.
    + cbn [Nat.ltb Nat.leb]. lia.
    + simpl; lia.
    + intros env base Hb. rewrite V1, (V2 env base) by lia. rewrite pow_succ by auto.
      cbn [row_val]. destruct ob; cbn [opt_val beval b2z]; ring.
Qed.

Lemma max_count_char h m : wf_heap h ->
  (forall k, (bit_count k h <= m)%nat) -> (m = 0%nat \/ exists k, bit_count k h = m) -> max_count h = m.
Proof.
  intros Wh Hle Hex.
  assert (max_count h <= m)%nat.
  { destruct (Nat.ltb_spec m (max_count h)) as [H|H]; [|lia].
    apply max_count_exists in H as [k Hk]; auto. specialize (Hle k); lia. }
  destruct Hex as [->|[k <-]]; [lia|]. pose proof (max_count_count_le h k Wh). lia.
Qed.

Lemma convert_loop_ok fuel : forall h, wf_heap h -> (total_bits h < fuel)%nat ->
  exists rows, convert_loop fuel h = Some rows /\ length rows = max_count h /\
    Forall (fun r => exists l, In (fst r, l) h) rows /\
    forall env base, above base h -> rows_val env base rows = heap_val env base h.
Proof.
  induction fuel as [|f IH]; intros h Wh Hf; [lia|]. cbn [convert_loop].
  destruct (Nat.eqb_spec (max_count h) 0) as [E0|E0].
  - exists []. apply max_count_0 in E0; auto. subst. repeat split; auto.
  - destruct (min_index h) as [lo|] eqn:El.
    2:{ apply min_index_none in El; subst; cbn in E0; lia. }
    destruct (max_index h) as [hi|] eqn:Eh.
    2:{ apply max_index_none in Eh; subst; cbn in E0; lia. }
    destruct (pop_row h lo (Z.to_nat (hi - lo + 1))) as [row h'] eqn:Er.
    destruct (min_index_in _ _ El) as [llo Hlo].
    pose proof (max_index_ge _ _ _ _ Eh Hlo) as Hlh.
    destruct (pop_row_spec _ _ _ _ _ Wh Er) as (W' & C' & I' & T' & L' & V').
    assert (Hcl : (1 <= bit_count lo h)%nat).
    { rewrite (in_count _ _ _ Wh Hlo). destruct Wh as [_ Hfa]. rewrite Forall_forall in Hfa.
      specialize (Hfa _ Hlo). cbn in Hfa. destruct llo; [congruence|]. cbn; lia. }
    destruct (Nat.ltb_spec 0 (Z.to_nat (hi - lo + 1))); [|lia].
    assert (Hrange : forall k, (0 < bit_count k h)%nat -> (lo <=? k) && (k <? lo + Z.of_nat (Z.to_nat (hi - lo + 1))) = true).
    { intros k Hk. assert (exists l, In (k, l) h) as [l Hin].
      { clear -Hk. induction h as [|[k' l] t IHh]; cbn in *; [lia|].
        destruct (Z.eqb_spec k' k); [subst; eauto|]. destruct IHh as [l' ?]; eauto. }
      pose proof (min_index_le _ _ _ _ El Hin). pose proof (max_index_ge _ _ _ _ Eh Hin).
      apply andb_true_iff; split; [apply Z.leb_le|apply Z.ltb_lt]; lia. }
    assert (Hmc : max_count h' = (max_count h - 1)%nat).
    { apply max_count_char; auto.
      - intros k. rewrite C'. pose proof (max_count_count_le h k Wh).
        destruct (Nat.ltb_spec 0 (bit_count k h)).
        + rewrite (Hrange k) by auto. lia.
        + lia.
      - destruct (max_count_exists h (max_count h - 1) Wh) as [k Hk]; [lia|].
        right. exists k. rewrite C', (Hrange k) by lia.
        pose proof (max_count_count_le h k Wh). lia. }
    destruct (IH h') as (rows & E & Ln & Fa & V); auto; [lia|].
    rewrite E. exists ((lo, row) :: rows). repeat split; auto.
    + cbn [length]. lia.
    + constructor; [cbn; eauto|]. eapply Forall_impl; [|exact Fa].
      intros [off r] [l Hin]. cbn [fst] in *. eauto.
    + intros env base Ha. cbn [rows_val]. rewrite V.
      * rewrite (V' env base); [ring|]. eapply Ha; eauto.
      * intros k l Hin. destruct (I' _ _ Hin) as [l' Hin']. eapply Ha; eauto.
Qed.

(** side conditions on the items of a scheme *)
Definition item_ok (booth : bool) (base : Z) (it : item) : Prop :=
  match it with
  | Prod a b =>
      (0 < op_size a)%nat /\ (0 < op_size b)%nat /\ op_frac b = 0 /\ base <= - op_frac a /\
      (booth = true -> (2 <= op_size a)%nat /\ op_frac a = 0)
  | Op c => (0 < op_size c)%nat /\ base <= - op_frac c
  end.
Definition action_ok (booth : bool) (base : Z) (x : action) : Prop :=
  match x with
  | AMerge it => item_ok booth base it
  | AReduce None => False
  | AReduce (Some lim) => (2 <= lim)%nat
  end.

Lemma merge_item_ok env base booth it hp :
  item_ok booth base it -> hp_ok base hp ->
  exists hp', merge_item booth it hp = Some hp' /\ hp_ok base hp' /\
    hp_val env base hp' = hp_val env base hp + item_val env base it.
Proof.
  intros Hi Ho. destruct it as [a b|c]; cbn [merge_item item_ok item_val] in *.
  - destruct Hi as (Ha & Hb & Hfb & Hbase & Hbo). rewrite Hfb, Z.sub_0_r.
    destruct booth.
    + destruct Hbo as [H2 Hfa]; auto. rewrite Hfa in *.
      apply booth_multiply_ok; auto.
    + eexists; split; [reflexivity|]. apply merge_product_plain_ok; auto.
  - eexists; split; [reflexivity|]. destruct Hi. apply merge_addition_ok; auto.
Qed.

(* the resulting heaps do not depend on env *)
Lemma merge_item_ok' base booth it hp :
  item_ok booth base it -> hp_ok base hp ->
  exists hp', merge_item booth it hp = Some hp' /\ hp_ok base hp' /\
    forall env, hp_val env base hp' = hp_val env base hp + item_val env base it.
Proof.
  intros Hi Ho. destruct (merge_item_ok (fun _ => false) base booth it hp Hi Ho) as (hp' & E & O & _).
  exists hp'; repeat split; try apply O; auto. intros env.
  destruct (merge_item_ok env base booth it hp Hi Ho) as (hp'' & E' & _ & V). congruence.
Qed.

Lemma run_actions_ok base m booth l : forall hp,
  Forall (action_ok booth base) l -> hp_ok base hp ->
  exists hp', run_actions m booth l hp = Some hp' /\ hp_ok base hp' /\
    forall env, hp_val env base hp' = hp_val env base hp + actions_val env base l.
Proof.
  induction l as [|x t IH]; intros hp Hl Ho.
  - exists hp; cbn; repeat split; try apply Ho; intros; lia.
  - inversion Hl as [|? ? Hx Ht]; subst. destruct x as [it|[lim|]]; cbn [run_actions action_ok actions_val] in *.
    + destruct (merge_item_ok' base booth it hp Hx Ho) as (hp1 & -> & O1 & V1).
      destruct (IH hp1 Ht O1) as (hp2 & E2 & O2 & V2).
      exists hp2; split; auto; split; auto. intros env. rewrite V2, V1; ring.
    + destruct Ho as (W1 & W2 & A1 & A2).
      destruct (reduce_heap_ok m lim (fst hp) Hx W1) as (p & -> & Wp & _ & Vp).
      destruct (reduce_heap_ok m lim (snd hp) Hx W2) as (n & -> & Wn & _ & Vn).
      destruct (IH (p, n) Ht) as (hp2 & E2 & O2 & V2).
      * repeat split; cbn [fst snd]; try apply Wp; try apply Wn;
          [apply (Vp (fun _ => false) base A1)|apply (Vn (fun _ => false) base A2)].
      * exists hp2; split; auto; split; auto. intros env. rewrite V2. unfold hp_val; cbn [fst snd].
        destruct (Vp env base A1) as [_ ->]. destruct (Vn env base A2) as [_ ->]. ring.
    + destruct Hx.
Qed.

Lemma advanced_scheme_ok base m booth l :
  Forall (action_ok booth base) l ->
  exists rp rn, advanced_scheme m booth l = Some (rp, rn) /\
    (length rp <= 2)%nat /\ (length rn <= 2)%nat /\
    Forall (fun r => base <= fst r) (rp ++ rn) /\
    forall env, rows_val env base rp - rows_val env base rn = actions_val env base l.
Proof.
  intros Hl. unfold advanced_scheme.
  destruct (run_actions_ok base m booth l ([], []) Hl) as ([p n] & -> & (W1 & W2 & A1 & A2) & V).
  { repeat split; try apply wf_nil; try apply above_nil; constructor. }
  cbn [fst snd] in *.
  destruct (reduce_heap_ok m 2 p) as (p' & -> & Wp & Mp & Vp); auto.
  destruct (reduce_heap_ok m 2 n) as (n' & -> & Wn & Mn & Vn); auto.
  destruct (convert_loop_ok (S (total_bits p')) p') as (rp & Ep & Lp & Fp & Rp); auto.
  destruct (convert_loop_ok (S (total_bits n')) n') as (rn & En & Ln & Fn & Rn); auto.
  unfold convert_heap. rewrite Ep, En. exists rp, rn.
  destruct (Vp (fun _ => false) base A1) as [Ap _]. destruct (Vn (fun _ => false) base A2) as [An _].
  repeat split; try lia.
  - apply Forall_app; split; (eapply Forall_impl; [|eassumption]);
      intros [off r] [x Hin]; cbn [fst] in *; eauto.
  - intros env. rewrite Rp, Rn; auto.
    destruct (Vp env base A1) as [_ ->]. destruct (Vn env base A2) as [_ ->].
    specialize (V env). unfold hp_val in V; cbn [fst snd heap_val] in V. lia.
Qed.
