From Coq Require Import ZArith List Bool Lia Permutation.
From Verif Require Import BitHeapModel BitHeapSpec.
Import ListNotations.
Open Scope Z_scope.

Lemma comp_3to2_val env a b c cy s :
  comp_3to2 a b c = (cy, s) ->
  b2z (beval env a) + b2z (beval env b) + b2z (beval env c)
  = 2 * b2z (beval env cy) + b2z (beval env s).
Proof.
  unfold comp_3to2; intros H; injection H as <- <-; simpl.
  destruct (beval env a), (beval env b), (beval env c); reflexivity.
Qed.

Definition opt_val env (o : option bexp) : Z :=
  match o with None => 0 | Some b => b2z (beval env b) end.
Definition opt_len (o : option bexp) : nat := match o with None => 0%nat | Some _ => 1%nat end.

Lemma comp_4to2_val env cin a b c d co cy s :
  comp_4to2 cin a b c d = (co, cy, s) ->
  opt_val env cin + b2z (beval env a) + b2z (beval env b) + b2z (beval env c) + b2z (beval env d)
  = 2 * b2z (beval env co) + 2 * b2z (beval env cy) + b2z (beval env s).
Proof.
  unfold comp_4to2; destruct cin as [ci|]; simpl; intros H; injection H as <- <- <-; simpl.
  - destruct (beval env ci), (beval env a), (beval env b), (beval env c), (beval env d); reflexivity.
  - destruct (beval env a), (beval env b), (beval env c), (beval env d); reflexivity.
Qed.

Lemma bits_sum_app env l1 l2 : bits_sum env (l1 ++ l2) = bits_sum env l1 + bits_sum env l2.
Proof. induction l1; simpl; lia. Qed.

Lemma insert_val env base w b h :
  heap_val env base (insert_bit w b h) = heap_val env base h + b2z (beval env b) * 2 ^ (w - base).
Proof.
  induction h as [|[k l] t IH]; simpl; [lia|].
  destruct (Z.eqb_spec k w); simpl.
  - subst; rewrite bits_sum_app; simpl; ring.
  - rewrite IH; ring.
Qed.

Lemma insert_above base w b h : base <= w -> above base h -> above base (insert_bit w b h).
Proof.
  unfold above; induction h as [|[k l] t IH]; simpl; intros Hw H k' l' Hin.
  - destruct Hin as [E|[]]; injection E as <- <-; auto.
  - destruct (Z.eqb_spec k w); simpl in Hin; destruct Hin as [E|Hin].
    + injection E as <- <-; eapply H; left; eauto.
    + eapply H; right; eauto.
    + injection E as <- <-; eapply H; left; eauto.
    + eapply IH; eauto.
Qed.

Lemma insert_total w b h : total_bits (insert_bit w b h) = S (total_bits h).
Proof.
  induction h as [|[k l] t IH]; simpl; auto.
  destruct (k =? w); simpl; rewrite ?app_length, ?IH; simpl; lia.
Qed.

Lemma insert_keys w b h k : In k (map fst (insert_bit w b h)) <-> k = w \/ In k (map fst h).
Proof.
  induction h as [|[k' l] t IH]; simpl; [intuition|].
  destruct (Z.eqb_spec k' w); simpl; [subst; intuition|]. rewrite IH; intuition.
Qed.

Lemma insert_wf w b h : wf_heap h -> wf_heap (insert_bit w b h).
Proof.
  unfold wf_heap; induction h as [|[k l] t IH]; simpl; intros [Hnd Hf].
  - split; repeat constructor; simpl; auto; discriminate.
  - inversion Hnd; inversion Hf; subst.
    destruct (Z.eqb_spec k w); simpl.
    + split; constructor; auto. simpl; intros E; destruct l; discriminate.
    + destruct IH as [I1 I2]; auto. split; constructor; auto.
      rewrite insert_keys; intros [E|E]; auto.
Qed.

Lemma insert_count w b h k :
  bit_count k (insert_bit w b h) = (bit_count k h + if (k =? w)%Z then 1 else 0)%nat.
Proof.
  induction h as [|[k' l] t IH]; simpl.
  - rewrite (Z.eqb_sym k w); destruct (w =? k); reflexivity.
  - destruct (Z.eqb_spec k' w); simpl.
    + subst. destruct (Z.eqb_spec w k); subst.
      * rewrite Z.eqb_refl, app_length; reflexivity.
      * destruct (Z.eqb_spec k w); subst; [congruence|lia].
    + destruct (Z.eqb_spec k' k); auto. subst. destruct (Z.eqb_spec k w); [congruence|lia].
Qed.

Lemma insert_bits_val env base w bl h :
  heap_val env base (insert_bits w bl h) = heap_val env base h + bits_sum env bl * 2 ^ (w - base).
Proof.
  unfold insert_bits; revert h; induction bl; simpl; intros; [lia|].
  rewrite IHbl, insert_val; ring.
Qed.
Lemma insert_bits_above base w bl h : base <= w -> above base h -> above base (insert_bits w bl h).
Proof.
  unfold insert_bits; revert h; induction bl; simpl; intros; auto.
  apply IHbl; auto using insert_above.
Qed.
Lemma insert_bits_total w bl h : total_bits (insert_bits w bl h) = (length bl + total_bits h)%nat.
Proof.
  unfold insert_bits; revert h; induction bl; simpl; intros; auto.
  rewrite IHbl, insert_total; lia.
Qed.
Lemma insert_bits_wf w bl h : wf_heap h -> wf_heap (insert_bits w bl h).
Proof.
  unfold insert_bits; revert h; induction bl; simpl; intros; auto using insert_wf.
Qed.
Lemma insert_bits_count w bl h k :
  (bit_count k h <= bit_count k (insert_bits w bl h))%nat.
Proof.
  unfold insert_bits; revert h; induction bl; simpl; intros; auto.
  etransitivity; [|apply IHbl]. rewrite insert_count; lia.
Qed.

(** popping *)
Lemma pop_bits_val env base w n h bl h' :
  pop_bits w n h = (bl, h') ->
  heap_val env base h = heap_val env base h' + bits_sum env bl * 2 ^ (w - base).
Proof.
  revert bl h'; induction h as [|[k l] t IH]; simpl; intros bl h' H.
  - injection H as <- <-; reflexivity.
  - destruct (Z.eqb_spec k w).
    + injection H as <- <-. subst k.
      rewrite <- (firstn_skipn n l) at 1. rewrite bits_sum_app.
      destruct (skipn n l); simpl; ring.
    + destruct (pop_bits w n t) as [bl0 t'] eqn:E. injection H as <- <-.
      simpl. rewrite (IH _ _ eq_refl); ring.
Qed.

Lemma pop_bits_in w n h bl h' k l :
  pop_bits w n h = (bl, h') -> In (k, l) h' -> exists l', In (k, l') h.
Proof.
  revert bl h'; induction h as [|[k0 l0] t IH]; simpl; intros bl h' H Hin.
  - injection H as <- <-; destruct Hin.
  - destruct (Z.eqb_spec k0 w).
    + injection H as <- <-. destruct (skipn n l0).
      * eexists; right; eauto.
      * destruct Hin as [E|Hin]; [injection E as <- <-|]; eexists; [left|right]; eauto.
    + destruct (pop_bits w n t) as [bl0 t'] eqn:E. injection H as <- <-.
      destruct Hin as [E2|Hin]; [injection E2 as <- <-; eexists; left; eauto|].
      destruct (IH _ _ eq_refl Hin) as [l' ?]; exists l'; auto.
Qed.

Lemma pop_bits_above base w n h bl h' :
  pop_bits w n h = (bl, h') -> above base h -> above base h'.
Proof.
  unfold above; intros H Ha k l Hin.
  destruct (pop_bits_in _ _ _ _ _ _ _ H Hin) as [l' ?]; eauto.
Qed.

Lemma pop_bits_total w n h bl h' :
  pop_bits w n h = (bl, h') -> total_bits h = (length bl + total_bits h')%nat.
Proof.
  revert bl h'; induction h as [|[k l] t IH]; simpl; intros bl h' H.
  - injection H as <- <-; reflexivity.
  - destruct (k =? w).
    + injection H as <- <-.
      assert (length l = length (firstn n l) + length (skipn n l))%nat
        by (rewrite <- app_length, firstn_skipn; reflexivity).
      destruct (skipn n l); simpl in *; lia.
    + destruct (pop_bits w n t) as [bl0 t'] eqn:E. injection H as <- <-.
      simpl. rewrite (IH _ _ eq_refl); lia.
Qed.

Lemma pop_bits_length w n h bl h' :
  pop_bits w n h = (bl, h') -> length bl = Nat.min n (bit_count w h).
Proof.
  revert bl h'; induction h as [|[k l] t IH]; simpl; intros bl h' H.
  - injection H as <- <-; simpl; lia.
  - destruct (k =? w).
    + injection H as <- <-. apply firstn_length.
    + destruct (pop_bits w n t) as [bl0 t'] eqn:E. injection H as <- <-. eauto.
Qed.

Lemma count_notin w h : ~ In w (map fst h) -> bit_count w h = 0%nat.
Proof.
  induction h as [|[k l] t IH]; simpl; auto; intros H.
  destruct (Z.eqb_spec k w); [subst; tauto|]; tauto.
Qed.

Lemma pop_bits_keys w n h bl h' k :
  pop_bits w n h = (bl, h') -> In k (map fst h') -> In k (map fst h).
Proof.
  intros H Hin. apply in_map_iff in Hin as [[k' l] [<- Hin]].
  destruct (pop_bits_in _ _ _ _ _ _ _ H Hin) as [l' ?].
  apply in_map_iff; exists (k', l'); auto.
Qed.

Lemma pop_bits_wf w n h bl h' : pop_bits w n h = (bl, h') -> wf_heap h -> wf_heap h'.
Proof.
  revert bl h'; induction h as [|[k l] t IH]; simpl; intros bl h' H [Hnd Hf].
  - injection H as <- <-; split; constructor.
  - inversion Hnd; inversion Hf; subst. destruct (Z.eqb_spec k w).
    + injection H as <- <-. subst k.
      destruct (skipn n l) eqn:E; split; auto; constructor; auto; discriminate.
    + destruct (pop_bits w n t) as [bl0 t'] eqn:E. injection H as <- <-.
      destruct (IH _ _ eq_refl) as [I1 I2]; [split; auto|].
      split; constructor; auto. intros Hk. apply (pop_bits_keys _ _ _ _ _ _ E) in Hk; auto.
Qed.

Lemma pop_bits_count_eq w n h bl h' :
  pop_bits w n h = (bl, h') -> wf_heap h ->
  bit_count w h = (length bl + bit_count w h')%nat.
Proof.
  revert bl h'; induction h as [|[k l] t IH]; simpl; intros bl h' H [Hnd Hf].
  - injection H as <- <-; reflexivity.
  - inversion Hnd; inversion Hf; subst. destruct (Z.eqb_spec k w).
    + injection H as <- <-. subst k.
      assert (length l = length (firstn n l) + length (skipn n l))%nat
        by (rewrite <- app_length, firstn_skipn; reflexivity).
      destruct (skipn n l) eqn:E; simpl in *.
      * rewrite (count_notin w t) by auto; lia.
      * rewrite Z.eqb_refl; simpl; lia.
    + destruct (pop_bits w n t) as [bl0 t'] eqn:E. injection H as <- <-.
      simpl. destruct (Z.eqb_spec k w); [congruence|]. apply (IH bl0 t'); auto; split; auto.
Qed.

Lemma pop_bits_count_neq w n h bl h' k :
  pop_bits w n h = (bl, h') -> k <> w -> bit_count k h' = bit_count k h.
Proof.
  revert bl h'; induction h as [|[k0 l] t IH]; simpl; intros bl h' H Hk.
  - injection H as <- <-; reflexivity.
  - destruct (Z.eqb_spec k0 w).
    + injection H as <- <-. subst k0.
      destruct (Z.eqb_spec w k); [congruence|].
      destruct (skipn n l); simpl; auto.
      destruct (Z.eqb_spec w k); [congruence|]; auto.
    + destruct (pop_bits w n t) as [bl0 t'] eqn:E. injection H as <- <-.
      simpl. destruct (k0 =? k); auto. eapply IH; eauto.
Qed.

Lemma min_index_in h w : min_index h = Some w -> exists l, In (w, l) h.
Proof.
  revert w; induction h as [|[k l] t IH]; simpl; intros w H; [discriminate|].
  destruct (min_index t) eqn:E.
  - injection H as <-. destruct (Z.min_spec k z) as [[_ ->]|[_ ->]].
    + eexists; left; eauto.
    + destruct (IH _ eq_refl) as [l' ?]; eexists; right; eauto.
  - injection H as <-. eexists; left; eauto.
Qed.
Lemma min_index_none h : min_index h = None -> h = [].
Proof. destruct h as [|[k l] t]; simpl; auto. destruct (min_index t); discriminate. Qed.
Lemma min_index_le h w k l : min_index h = Some w -> In (k, l) h -> w <= k.
Proof.
  revert w; induction h as [|[k' l'] t IH]; simpl; intros w H Hin; [discriminate|].
  destruct (min_index t) eqn:E; injection H as <-.
  - destruct Hin as [X|Hin]; [injection X as <- <-; lia|]. specialize (IH _ eq_refl Hin); lia.
  - apply min_index_none in E; subst. destruct Hin as [X|[]]; injection X as <- <-; lia.
Qed.
Lemma max_index_in h w : max_index h = Some w -> exists l, In (w, l) h.
Proof.
  revert w; induction h as [|[k l] t IH]; simpl; intros w H; [discriminate|].
  destruct (max_index t) eqn:E.
  - injection H as <-. destruct (Z.max_spec k z) as [[_ ->]|[_ ->]].
    + destruct (IH _ eq_refl) as [l' ?]; eexists; right; eauto.
    + eexists; left; eauto.
  - injection H as <-. eexists; left; eauto.
Qed.
Lemma max_index_none h : max_index h = None -> h = [].
Proof. destruct h as [|[k l] t]; simpl; auto. destruct (max_index t); discriminate. Qed.
Lemma max_index_ge h w k l : max_index h = Some w -> In (k, l) h -> k <= w.
Proof.
  revert w; induction h as [|[k' l'] t IH]; simpl; intros w H Hin; [discriminate|].
  destruct (max_index t) eqn:E; injection H as <-.
  - destruct Hin as [X|Hin]; [injection X as <- <-; lia|]. specialize (IH _ eq_refl Hin); lia.
  - apply max_index_none in E; subst. destruct Hin as [X|[]]; injection X as <- <-; lia.
Qed.

Lemma in_count w l h : wf_heap h -> In (w, l) h -> bit_count w h = length l.
Proof.
  induction h as [|[k l'] t IH]; simpl; intros [Hnd Hf] Hin; [destruct Hin|].
  inversion Hnd; inversion Hf; subst.
  destruct Hin as [E|Hin].
  - injection E as -> ->; rewrite Z.eqb_refl; auto.
  - destruct (Z.eqb_spec k w).
    + subst. exfalso. apply H1. apply in_map_iff. exists (w, l); auto.
    + apply IH; auto; split; auto.
Qed.

Lemma max_count_0 h : wf_heap h -> max_count h = 0%nat -> h = [].
Proof.
  destruct h as [|[k l] t]; auto; cbn; intros [_ Hf] H. inversion Hf; subst; cbn in *.
  destruct l; [congruence|]. cbn [length] in H. lia.
Qed.

Lemma max_count_exists h lim :
  wf_heap h -> (lim < max_count h)%nat -> exists k, (lim < bit_count k h)%nat.
Proof.
  intros Hw H.
  assert (exists k l, In (k, l) h /\ (lim < length l)%nat) as (k & l & Hin & Hl).
  { clear Hw. induction h as [|[k l] t IH]; simpl in *; [lia|].
    destruct (Nat.ltb_spec lim (length l)).
    - exists k, l; auto.
    - destruct IH as (k' & l' & ? & ?); [lia|]. exists k', l'; auto. }
  exists k. rewrite (in_count _ _ _ Hw Hin); auto.
Qed.

Lemma max_count_count_le h k : wf_heap h -> (bit_count k h <= max_count h)%nat.
Proof.
  intros _; induction h as [|[k' l] t IH]; simpl; auto. destruct (k' =? k); lia.
Qed.

Lemma pop_lower_spec n h :
  wf_heap h -> (0 < n)%nat -> max_count h <> 0%nat ->
  exists bl w h', pop_lower_bits n h = Some (bl, w, h') /\
    pop_bits w n h = (bl, h') /\ bl <> [] /\ (length bl <= n)%nat /\
    (exists l, In (w, l) h) /\
    length bl = Nat.min n (bit_count w h).
Proof.
  intros Hw Hn Hc. unfold pop_lower_bits.
  destruct (min_index h) as [w|] eqn:E.
  2:{ apply min_index_none in E; subst; simpl in Hc; lia. }
  destruct (pop_bits w n h) as [bl h'] eqn:Ep.
  pose proof (pop_bits_length _ _ _ _ _ Ep) as Hl.
  destruct (min_index_in _ _ E) as [l Hin].
  exists bl, w, h'; repeat split; auto; try lia; eauto.
  rewrite (in_count _ _ _ Hw Hin) in Hl.
  destruct Hw as [_ Hf]. rewrite Forall_forall in Hf. specialize (Hf _ Hin); simpl in Hf.
  destruct l; [congruence|]. intros ->. simpl in Hl; lia.
Qed.

Lemma pow_succ w base : base <= w -> 2 ^ (w + 1 - base) = 2 * 2 ^ (w - base).
Proof. intros. replace (w + 1 - base) with (Z.succ (w - base)) by lia. apply Z.pow_succ_r; lia. Qed.

(** what a reduction of [prev] into [next] (with a carry heap) establishes *)
Definition red_ok (prev next carry out : heap) : Prop :=
  wf_heap out /\
  (forall env base, above base prev -> above base next -> above base carry ->
     above base out /\
     heap_val env base out
     = heap_val env base prev + heap_val env base next + heap_val env base carry).

Lemma above_nil base : above base [].
Proof. intros k l []. Qed.

Lemma wf_nil : wf_heap [].
Proof. split; constructor. Qed.

Lemma wallace_loop_ok fuel : forall prev next,
  wf_heap prev -> wf_heap next -> (total_bits prev < fuel)%nat ->
  exists out, wallace_loop fuel prev next = Some out /\ red_ok prev next [] out /\
    (total_bits out <= total_bits prev + total_bits next)%nat /\
    ((exists k, (3 <= bit_count k prev)%nat) ->
       (total_bits out < total_bits prev + total_bits next)%nat).
Proof.
  induction fuel as [|f IH]; intros prev next Wp Wn Hf; [lia|]. cbn [wallace_loop].
  destruct (Nat.eqb_spec (max_count prev) 0) as [E0|E0].
  - apply max_count_0 in E0; auto; subst. exists next; split; auto; split; [|split; [simpl; lia|]].
    + split; auto. intros; split; auto; simpl; lia.
    + intros [k Hk]; simpl in Hk; lia.
  - destruct (pop_lower_spec 3 prev) as (bl & w & prev' & E1 & E2 & Hne & Hlen & (l & Hin) & Hbl); auto; try lia.
    rewrite E1.
    pose proof (pop_bits_total _ _ _ _ _ E2) as Ht.
    pose proof (pop_bits_wf _ _ _ _ _ E2 Wp) as Wp'.
    assert (Hpos : (0 < length bl)%nat) by (destruct bl; simpl; [congruence|lia]).
    assert (Hgen : length bl <> 3%nat ->
      exists out, wallace_loop f prev' (insert_bits w bl next) = Some out /\ red_ok prev next [] out /\
      (total_bits out <= total_bits prev + total_bits next)%nat /\
      ((exists k, (3 <= bit_count k prev)%nat) ->
         (total_bits out < total_bits prev + total_bits next)%nat)).
    { intros Hl3.
      destruct (IH prev' (insert_bits w bl next)) as (out & Eo & [Wo Vo] & Hto & Hst);
        auto using insert_bits_wf; [lia|].
      rewrite insert_bits_total in *.
      exists out; split; auto; split; [|split; [lia|]].
      - split; auto. intros env base Hp Hn Hc.
        destruct (Vo env base) as [A V]; auto.
        + eapply pop_bits_above; eauto.
        + apply insert_bits_above; auto. eapply Hp; eauto.
        + split; auto. rewrite V, insert_bits_val, (pop_bits_val _ _ _ _ _ _ _ E2); simpl; lia.
      - intros [k Hk].
        assert (k <> w). { intros ->. lia. }
        assert (total_bits out < total_bits prev' + (length bl + total_bits next))%nat; [|lia].
        apply Hst. exists k. rewrite (pop_bits_count_neq _ _ _ _ _ _ E2); auto. }
    destruct bl as [|a [|b [|c [|? ?]]]]; try (apply Hgen; simpl; lia).
    clear Hgen.
    destruct (comp_3to2 a b c) as [cy s] eqn:Ec.
    destruct (IH prev' (insert_bit w s (insert_bit (w + 1) cy next))) as (out & Eo & [Wo Vo] & Hto & _);
      auto using insert_wf; [simpl in *; lia|].
    rewrite !insert_total in Hto. simpl in Ht.
    exists out; split; auto; split; [|split; lia].
    split; auto. intros env base Hp Hn Hc.
    assert (base <= w) by (eapply Hp; eauto).
    destruct (Vo env base) as [A V]; auto.
    + eapply pop_bits_above; eauto.
    + apply insert_above; auto. apply insert_above; auto; lia.
    + split; auto. rewrite V, !insert_val, (pop_bits_val _ _ _ _ _ _ _ E2), pow_succ; auto.
      pose proof (comp_3to2_val env _ _ _ _ _ Ec) as Hv. cbn [bits_sum heap_val].
      replace (b2z (beval env a) + (b2z (beval env b) + (b2z (beval env c) + 0)))
        with (2 * b2z (beval env cy) + b2z (beval env s)) by lia. ring.
Qed.

Lemma dadda_loop_ok fuel nc : forall prev next,
  wf_heap prev -> wf_heap next -> (total_bits prev < fuel)%nat ->
  exists out, dadda_loop fuel nc prev next = Some out /\ red_ok prev next [] out /\
    (total_bits out <= total_bits prev + total_bits next)%nat /\
    ((exists k, (3 <= bit_count k prev)%nat /\ (nc < bit_count k prev + bit_count k next)%nat) ->
       (total_bits out < total_bits prev + total_bits next)%nat).
Proof.
  induction fuel as [|f IH]; intros prev next Wp Wn Hf; [lia|]. cbn [dadda_loop].
  destruct (Nat.eqb_spec (max_count prev) 0) as [E0|E0].
  - apply max_count_0 in E0; auto; subst. exists next; split; auto; split; [|split; [simpl; lia|]].
    + split; auto. intros; split; auto; simpl; lia.
    + intros [k [Hk _]]; simpl in Hk; lia.
  - destruct (pop_lower_spec 3 prev) as (bl & w & prev' & E1 & E2 & Hne & Hlen & (l & Hin) & Hbl); auto; try lia.
    rewrite E1.
    pose proof (pop_bits_total _ _ _ _ _ E2) as Ht.
    pose proof (pop_bits_wf _ _ _ _ _ E2 Wp) as Wp'.
    pose proof (pop_bits_count_eq _ _ _ _ _ E2 Wp) as Hceq.
    assert (Hpos : (0 < length bl)%nat) by (destruct bl; simpl; [congruence|lia]).
    destruct (Nat.leb (length bl) 2 || Nat.leb (bit_count w prev' + length bl + bit_count w next) nc)%bool eqn:Eb.
    + destruct (IH prev' (insert_bits w bl next)) as (out & Eo & [Wo Vo] & Hto & Hst);
        auto using insert_bits_wf; [lia|].
      rewrite insert_bits_total in *.
      exists out; split; auto; split; [|split; [lia|]].
      * split; auto. intros env base Hp Hn Hc.
        destruct (Vo env base) as [A V]; auto.
        -- eapply pop_bits_above; eauto.
        -- apply insert_bits_above; auto. eapply Hp; eauto.
        -- split; auto. rewrite V, insert_bits_val, (pop_bits_val _ _ _ _ _ _ _ E2); simpl; lia.
      * intros [k [Hk Hk2]].
        assert (k <> w).
        { intros ->. apply orb_true_iff in Eb as [Eb|Eb]; apply Nat.leb_le in Eb; lia. }
        assert (total_bits out < total_bits prev' + (length bl + total_bits next))%nat; [|lia].
        apply Hst. exists k. rewrite (pop_bits_count_neq _ _ _ _ _ _ E2); auto.
        pose proof (insert_bits_count w bl next k). lia.
    + apply orb_false_iff in Eb as [Eb1 Eb2]. apply Nat.leb_gt in Eb1.
      destruct bl as [|a [|b [|c [|? ?]]]]; try (simpl in *; lia).
      destruct (comp_3to2 a b c) as [cy s] eqn:Ec.
      destruct (IH prev' (insert_bit w s (insert_bit (w + 1) cy next))) as (out & Eo & [Wo Vo] & Hto & _);
        auto using insert_wf; [simpl in *; lia|].
      rewrite !insert_total in Hto. simpl in Ht.
      exists out; split; auto; split; [|split; lia].
      split; auto. intros env base Hp Hn Hc.
      assert (base <= w) by (eapply Hp; eauto).
      destruct (Vo env base) as [A V]; auto.
      * eapply pop_bits_above; eauto.
      * apply insert_above; auto. apply insert_above; auto; lia.
      * split; auto. rewrite V, !insert_val, (pop_bits_val _ _ _ _ _ _ _ E2), pow_succ; auto.
        pose proof (comp_3to2_val env _ _ _ _ _ Ec) as Hv. cbn [bits_sum heap_val].
        replace (b2z (beval env a) + (b2z (beval env b) + (b2z (beval env c) + 0)))
          with (2 * b2z (beval env cy) + b2z (beval env s)) by lia. ring.
Qed.

(** 4:2 machinery *)
Lemma pop_cin_spec w carry cin carry' :
  wf_heap carry -> pop_cin w carry = (cin, carry') ->
  wf_heap carry' /\ total_bits carry = (opt_len cin + total_bits carry')%nat /\
  (forall env base, above base carry -> above base carry' /\
    heap_val env base carry = heap_val env base carry' + opt_val env cin * 2 ^ (w - base)).
Proof.
  intros Wc. unfold pop_cin. destruct (Nat.ltb_spec 0 (bit_count w carry)) as [Hc|Hc].
  - unfold pop_bit. destruct (pop_bits w 1 carry) as [bl h'] eqn:E. intros H. injection H as <- <-.
    pose proof (pop_bits_length _ _ _ _ _ E) as Hl.
    assert (length bl = 1%nat) as Hl1 by lia.
    destruct bl as [|b [|? ?]]; simpl in Hl1; try lia. simpl.
    split; [eapply pop_bits_wf; eauto|]. split; [rewrite (pop_bits_total _ _ _ _ _ E); reflexivity|].
    intros env base Ha. split; [eapply pop_bits_above; eauto|].
    rewrite (pop_bits_val _ _ _ _ _ _ _ E). simpl. ring.
  - intros H; injection H as <- <-. simpl. split; auto; split; auto.
    intros; split; auto; lia.
Qed.

Lemma insert_opt_val env base w o h :
  heap_val env base (insert_opt w o h) = heap_val env base h + opt_val env o * 2 ^ (w - base).
Proof. destruct o; simpl; [apply insert_val|lia]. Qed.
Lemma insert_opt_above base w o h : base <= w -> above base h -> above base (insert_opt w o h).
Proof. destruct o; simpl; auto using insert_above. Qed.
Lemma insert_opt_total w o h : total_bits (insert_opt w o h) = (opt_len o + total_bits h)%nat.
Proof. destruct o; simpl; auto using insert_total. Qed.
Lemma insert_opt_wf w o h : wf_heap h -> wf_heap (insert_opt w o h).
Proof. destruct o; simpl; auto using insert_wf. Qed.
Lemma insert_opt_count w o h k : (bit_count k h <= bit_count k (insert_opt w o h))%nat.
Proof. destruct o; simpl; auto. rewrite insert_count; lia. Qed.

Lemma step_4to2_ok bl w cin next carry :
  bl <> [] -> (length bl <= 4)%nat -> wf_heap next -> wf_heap carry ->
  exists next' carry', step_4to2 bl w cin next carry = Some (next', carry') /\
    wf_heap next' /\ wf_heap carry' /\
    (total_bits next' + total_bits carry' <=
       length bl + opt_len cin + total_bits next + total_bits carry)%nat /\
    ((3 <= length bl)%nat ->
     (total_bits next' + total_bits carry' <
       length bl + opt_len cin + total_bits next + total_bits carry)%nat) /\
    (forall k, (bit_count k next <= bit_count k next')%nat) /\
    (forall env base, base <= w -> above base next -> above base carry ->
      above base next' /\ above base carry' /\
      heap_val env base next' + heap_val env base carry'
      = heap_val env base next + heap_val env base carry
        + (bits_sum env bl + opt_val env cin) * 2 ^ (w - base)).
Proof.
  intros Hne Hlen Wn Wc.
  destruct bl as [|a [|b [|c [|d [|? ?]]]]]; try congruence; try (simpl in Hlen; lia);
    unfold step_4to2.
  - do 2 eexists; split; [reflexivity|].
    refine (conj _ (conj _ (conj _ (conj _ (conj _ _))))).
    + apply insert_opt_wf, insert_wf; auto.
    + auto.
    + rewrite ?insert_opt_total, ?insert_total; simpl; lia.
    + simpl; lia.
    + intros k; etransitivity; [|apply insert_opt_count]; rewrite insert_count; lia.
    + intros env base Hb An Ac; refine (conj _ (conj Ac _)).
      * apply insert_opt_above; auto using insert_above.
      * rewrite insert_opt_val, insert_val; cbn [bits_sum]; ring.
  - destruct cin as [ci|].
    + destruct (comp_3to2 a b ci) as [cy s] eqn:Ec.
      do 2 eexists; split; [reflexivity|].
      refine (conj _ (conj _ (conj _ (conj _ (conj _ _))))).
      * apply insert_wf, insert_wf; auto.
      * auto.
      * rewrite ?insert_total; simpl; lia.
      * simpl; lia.
      * intros k; rewrite !insert_count; lia.
      * intros env base Hb An Ac; refine (conj _ (conj Ac _)).
        -- apply insert_above; auto. apply insert_above; auto; lia.
        -- rewrite !insert_val, pow_succ; auto.
           pose proof (comp_3to2_val env _ _ _ _ _ Ec) as Hv. cbn [bits_sum opt_val].
           replace (b2z (beval env a) + (b2z (beval env b) + 0) + b2z (beval env ci))
             with (2 * b2z (beval env cy) + b2z (beval env s)) by lia. ring.
    + do 2 eexists; split; [reflexivity|].
      refine (conj _ (conj _ (conj _ (conj _ (conj _ _))))).
      * apply insert_bits_wf; auto.
      * auto.
      * rewrite ?insert_bits_total; simpl; lia.
      * simpl; lia.
      * intros k; apply insert_bits_count.
      * intros env base Hb An Ac; refine (conj _ (conj Ac _)).
        -- apply insert_bits_above; auto.
        -- rewrite insert_bits_val; cbn [opt_val]; ring.
  - destruct (comp_3to2 a b c) as [cy s] eqn:Ec.
    do 2 eexists; split; [reflexivity|].
    refine (conj _ (conj _ (conj _ (conj _ (conj _ _))))).
    + apply insert_wf, insert_wf, insert_opt_wf; auto.
    + auto.
    + rewrite ?insert_total, ?insert_opt_total; simpl; lia.
    + rewrite ?insert_total, ?insert_opt_total; simpl; lia.
    + intros k; rewrite !insert_count. pose proof (insert_opt_count w cin next k). lia.
    + intros env base Hb An Ac; refine (conj _ (conj Ac _)).
      * apply insert_above; auto. apply insert_above; [lia|]. apply insert_opt_above; auto.
      * rewrite !insert_val, insert_opt_val, pow_succ; auto.
        pose proof (comp_3to2_val env _ _ _ _ _ Ec) as Hv. cbn [bits_sum].
        replace (b2z (beval env a) + (b2z (beval env b) + (b2z (beval env c) + 0)) + opt_val env cin)
          with (2 * b2z (beval env cy) + b2z (beval env s) + opt_val env cin) by lia. ring.
  - destruct (comp_4to2 cin a b c d) as [[co cy] s] eqn:Ec.
    do 2 eexists; split; [reflexivity|].
    refine (conj _ (conj _ (conj _ (conj _ (conj _ _))))).
    + apply insert_wf, insert_wf; auto.
    + apply insert_wf; auto.
    + rewrite ?insert_total; simpl; lia.
    + rewrite ?insert_total; simpl; lia.
    + intros k; rewrite !insert_count; lia.
    + intros env base Hb An Ac; refine (conj _ (conj _ _)).
      * apply insert_above; auto. apply insert_above; auto; lia.
      * apply insert_above; auto; lia.
      * rewrite !insert_val, pow_succ; auto.
        pose proof (comp_4to2_val env _ _ _ _ _ _ _ _ Ec) as Hv. cbn [bits_sum].
        replace (b2z (beval env a) + (b2z (beval env b) + (b2z (beval env c) + (b2z (beval env d) + 0))) + opt_val env cin)
          with (2 * b2z (beval env co) + 2 * b2z (beval env cy) + b2z (beval env s)) by lia. ring.
Qed.

Lemma flush_ok fuel : forall carry next,
  wf_heap carry -> wf_heap next -> (total_bits carry < fuel)%nat ->
  exists out, flush_carry fuel carry next = Some out /\ red_ok [] next carry out /\
    total_bits out = (total_bits carry + total_bits next)%nat.
Proof.
  induction fuel as [|f IH]; intros carry next Wc Wn Hf; [lia|]. cbn [flush_carry].
  destruct (Nat.eqb_spec (max_count carry) 0) as [E0|E0].
  - apply max_count_0 in E0; auto; subst. exists next; split; auto; split; auto.
    split; auto. intros; split; auto; simpl; lia.
  - destruct (pop_lower_spec 1 carry) as (bl & w & carry' & E1 & E2 & Hne & Hlen & (l & Hin) & Hbl); auto; try lia.
    rewrite E1. destruct bl as [|b [|? ?]]; [congruence| |simpl in Hlen; lia].
    pose proof (pop_bits_total _ _ _ _ _ E2) as Ht. simpl in Ht.
    destruct (IH carry' (insert_bit w b next)) as (out & Eo & [Wo Vo] & Hto);
      eauto using insert_wf, pop_bits_wf; [lia|].
    exists out; split; auto; split; [|rewrite Hto, insert_total; lia].
    split; auto. intros env base Hp Hn Hc.
    destruct (Vo env base) as [A V]; auto.
    + apply insert_above; auto; eapply Hc; eauto.
    + eapply pop_bits_above; eauto.
    + split; auto. rewrite V, insert_val, (pop_bits_val _ _ _ _ _ _ _ E2). simpl; ring.
Qed.

Lemma wallace42_loop_ok fuel : forall prev next carry,
  wf_heap prev -> wf_heap next -> wf_heap carry -> (total_bits prev < fuel)%nat ->
  exists out, wallace42_loop fuel prev next carry = Some out /\ red_ok prev next carry out /\
    (total_bits out <= total_bits prev + total_bits next + total_bits carry)%nat /\
    ((exists k, (3 <= bit_count k prev)%nat) ->
       (total_bits out < total_bits prev + total_bits next + total_bits carry)%nat).
Proof.
  induction fuel as [|f IH]; intros prev next carry Wp Wn Wc Hf; [lia|]. cbn [wallace42_loop].
  destruct (Nat.eqb_spec (max_count prev) 0) as [E0|E0].
  - apply max_count_0 in E0; auto; subst.
    destruct (flush_ok (S (total_bits carry)) carry next) as (out & Eo & Ro & Ht); auto.
    exists out; split; auto; split; auto; split; [simpl; lia|].
    intros [k Hk]; simpl in Hk; lia.
  - destruct (pop_lower_spec 4 prev) as (bl & w & prev' & E1 & E2 & Hne & Hlen & (l & Hin) & Hbl); auto; try lia.
    rewrite E1.
    pose proof (pop_bits_total _ _ _ _ _ E2) as Ht.
    pose proof (pop_bits_wf _ _ _ _ _ E2 Wp) as Wp'.
    destruct (pop_cin w carry) as [cin carry'] eqn:Ecin.
    destruct (pop_cin_spec _ _ _ _ Wc Ecin) as (Wc' & Htc & Vc).
    destruct (step_4to2_ok bl w cin next carry') as (next' & carry'' & Es & Wn' & Wc'' & Hts & Hts3 & Hk & Vs); auto.
    rewrite Es.
    assert (Hpos : (0 < length bl)%nat) by (destruct bl; simpl; [congruence|lia]).
    destruct (IH prev' next' carry'') as (out & Eo & [Wo Vo] & Hto & Hst); auto; [lia|].
    exists out; split; auto; split; [|split; [lia|]].
    + split; auto. intros env base Hp Hn Hc.
      destruct (Vc env base Hc) as [A1 V1].
      destruct (Vs env base) as (A2 & A3 & V2); auto; [eapply Hp; eauto|].
      destruct (Vo env base) as [A V]; auto; [eapply pop_bits_above; eauto|].
      split; auto. rewrite V. rewrite (pop_bits_val _ _ _ _ _ _ _ E2), V1.
      rewrite <- Z.add_assoc, V2. ring.
    + intros [k Hk3]. destruct (Z.eq_dec k w) as [->|Hkw].
      * assert (3 <= length bl)%nat by lia. specialize (Hts3 H). lia.
      * assert (total_bits out < total_bits prev' + total_bits next' + total_bits carry'')%nat; [|lia].
        apply Hst. exists k. rewrite (pop_bits_count_neq _ _ _ _ _ _ E2); auto.
Qed.

Lemma dadda42_loop_ok fuel nc : forall prev next carry,
  wf_heap prev -> wf_heap next -> wf_heap carry -> (total_bits prev < fuel)%nat ->
  exists out, dadda42_loop fuel nc prev next carry = Some out /\ red_ok prev next carry out /\
    (total_bits out <= total_bits prev + total_bits next + total_bits carry)%nat /\
    ((exists k, (3 <= bit_count k prev)%nat /\ (nc < bit_count k prev + bit_count k next)%nat) ->
       (total_bits out < total_bits prev + total_bits next + total_bits carry)%nat).
Proof.
  induction fuel as [|f IH]; intros prev next carry Wp Wn Wc Hf; [lia|]. cbn [dadda42_loop].
  destruct (Nat.eqb_spec (max_count prev) 0) as [E0|E0].
  - apply max_count_0 in E0; auto; subst.
    destruct (flush_ok (S (total_bits carry)) carry next) as (out & Eo & Ro & Ht); auto.
    exists out; split; auto; split; auto; split; [simpl; lia|].
    intros [k [Hk _]]; simpl in Hk; lia.
  - destruct (pop_lower_spec 4 prev) as (bl & w & prev' & E1 & E2 & Hne & Hlen & (l & Hin) & Hbl); auto; try lia.
    rewrite E1.
    pose proof (pop_bits_total _ _ _ _ _ E2) as Ht.
    pose proof (pop_bits_wf _ _ _ _ _ E2 Wp) as Wp'.
    pose proof (pop_bits_count_eq _ _ _ _ _ E2 Wp) as Hceq.
    destruct (pop_cin w carry) as [cin carry'] eqn:Ecin.
    destruct (pop_cin_spec _ _ _ _ Wc Ecin) as (Wc' & Htc & Vc).
    assert (Hpos : (0 < length bl)%nat) by (destruct bl; simpl; [congruence|lia]).
    unfold step_dadda42.
    match goal with |- context [if ?c then _ else _] => destruct c eqn:Eb end.
    + destruct (IH prev' (insert_bits w bl (insert_opt w cin next)) carry')
        as (out & Eo & [Wo Vo] & Hto & Hst); auto using insert_bits_wf, insert_opt_wf; [lia|].
      rewrite insert_bits_total, insert_opt_total in *.
      exists out; split; auto; split; [|split; [lia|]].
      * split; auto. intros env base Hp Hn Hc.
        assert (base <= w) by (eapply Hp; eauto).
        destruct (Vc env base Hc) as [A1 V1].
        destruct (Vo env base) as [A V]; auto.
        -- eapply pop_bits_above; eauto.
        -- apply insert_bits_above; auto. apply insert_opt_above; auto.
        -- split; auto. rewrite V, insert_bits_val, insert_opt_val.
           rewrite (pop_bits_val _ _ _ _ _ _ _ E2), V1. ring.
      * intros [k [Hk Hk2]].
        assert (k <> w).
        { intros ->. apply andb_true_iff in Eb as [_ Eb]; apply Nat.leb_le in Eb; lia. }
        assert (total_bits out < total_bits prev' + (length bl + (opt_len cin + total_bits next)) + total_bits carry')%nat; [|lia].
        apply Hst. exists k. rewrite (pop_bits_count_neq _ _ _ _ _ _ E2); auto.
        pose proof (insert_bits_count w bl (insert_opt w cin next) k).
        pose proof (insert_opt_count w cin next k). lia.
    + destruct (step_4to2_ok bl w cin next carry') as (next' & carry'' & Es & Wn' & Wc'' & Hts & Hts3 & Hk & Vs); auto.
      rewrite Es.
      destruct (IH prev' next' carry'') as (out & Eo & [Wo Vo] & Hto & Hst); auto; [lia|].
      exists out; split; auto; split; [|split; [lia|]].
      * split; auto. intros env base Hp Hn Hc.
        destruct (Vc env base Hc) as [A1 V1].
        destruct (Vs env base) as (A2 & A3 & V2); auto; [eapply Hp; eauto|].
        destruct (Vo env base) as [A V]; auto; [eapply pop_bits_above; eauto|].
        split; auto. rewrite V. rewrite (pop_bits_val _ _ _ _ _ _ _ E2), V1.
        rewrite <- Z.add_assoc, V2. ring.
      * intros [k [Hk3 Hk4]]. destruct (Z.eq_dec k w) as [->|Hkw].
        -- assert (3 <= length bl)%nat by lia. specialize (Hts3 H). lia.
        -- assert (total_bits out < total_bits prev' + total_bits next' + total_bits carry'')%nat; [|lia].
           apply Hst. exists k. rewrite (pop_bits_count_neq _ _ _ _ _ _ E2); auto.
           specialize (Hk k). lia.
Qed.

(** one reduction step, all methods *)
Lemma reduction_ok m h : wf_heap h ->
  exists out, reduction m h = Some out /\ wf_heap out /\
    (total_bits out <= total_bits h)%nat /\
    ((2 < max_count h)%nat -> (total_bits out < total_bits h)%nat) /\
    (forall env base, above base h -> above base out /\ heap_val env base out = heap_val env base h).
Proof.
  intros Wh. destruct m; simpl.
  - destruct (wallace_loop_ok (S (total_bits h)) h []) as (out & E & [Wo V] & T & S3); auto using wf_nil; try lia.
    exists out; split; auto; split; auto; change (total_bits []) with 0%nat in *; split; [lia|split].
    + intros H. apply max_count_exists in H as [k Hk]; auto.
      assert (total_bits out < total_bits h + 0)%nat; [apply S3; exists k; lia|lia].
    + intros env base Ha. destruct (V env base Ha (above_nil _) (above_nil _)) as [A1 A2]; cbn [heap_val] in A2; split; auto; lia.
  - unfold dadda_reduction.
    destruct (dadda_loop_ok (S (total_bits h)) (Nat.div (2 * max_count h + 2) 3) h [])
      as (out & E & [Wo V] & T & S3); auto using wf_nil; try lia.
    exists out; split; auto; split; auto; change (total_bits []) with 0%nat in *; split; [lia|split].
    + intros H.
      destruct (max_count_exists h (max_count h - 1)) as [k Hk]; auto; [lia|].
      assert (total_bits out < total_bits h + 0)%nat; [apply S3|lia].
      exists k; split; [lia|].
      assert (Nat.div (2 * max_count h + 2) 3 < max_count h)%nat; [|lia].
      apply Nat.div_lt_upper_bound; lia.
    + intros env base Ha. destruct (V env base Ha (above_nil _) (above_nil _)) as [A1 A2]; cbn [heap_val] in A2; split; auto; lia.
  - unfold wallace_4to2_reduction.
    destruct (wallace42_loop_ok (S (total_bits h)) h [] []) as (out & E & [Wo V] & T & S3); auto using wf_nil; try lia.
    exists out; split; auto; split; auto; change (total_bits []) with 0%nat in *; split; [lia|split].
    + intros H. apply max_count_exists in H as [k Hk]; auto.
      assert (total_bits out < total_bits h + 0 + 0)%nat; [apply S3; exists k; lia|lia].
    + intros env base Ha. destruct (V env base Ha (above_nil _) (above_nil _)) as [A1 A2]; cbn [heap_val] in A2; split; auto; lia.
  - unfold dadda_4to2_reduction.
    destruct (dadda42_loop_ok (S (total_bits h)) (Nat.div (max_count h + 1) 2) h [] [])
      as (out & E & [Wo V] & T & S3); auto using wf_nil; try lia.
    exists out; split; auto; split; auto; change (total_bits []) with 0%nat in *; split; [lia|split].
    + intros H.
      destruct (max_count_exists h (max_count h - 1)) as [k Hk]; auto; [lia|].
      assert (total_bits out < total_bits h + 0 + 0)%nat; [apply S3|lia].
      exists k; split; [lia|].
      assert (Nat.div (max_count h + 1) 2 < max_count h)%nat; [|lia].
      apply Nat.div_lt_upper_bound; lia.
    + intros env base Ha. destruct (V env base Ha (above_nil _) (above_nil _)) as [A1 A2]; cbn [heap_val] in A2; split; auto; lia.
Qed.

Lemma reduce_heap_loop_ok m limit : (2 <= limit)%nat -> forall fuel h,
  wf_heap h -> (total_bits h < fuel)%nat ->
  exists out, reduce_heap_loop fuel m limit h = Some out /\ wf_heap out /\
    (max_count out <= limit)%nat /\
    (forall env base, above base h -> above base out /\ heap_val env base out = heap_val env base h).
Proof.
  intros Hl; induction fuel as [|f IH]; intros h Wh Hf; [lia|]. cbn [reduce_heap_loop].
  destruct (Nat.ltb_spec limit (max_count h)).
  - destruct (reduction_ok m h Wh) as (h1 & E1 & W1 & T1 & T1' & V1). rewrite E1.
    destruct (IH h1) as (out & E & Wo & Hm & V); auto; [lia|].
    exists out; split; [auto|split; [auto|split; [auto|]]]. intros env base Ha.
    destruct (V1 env base Ha) as [A1 V1']. destruct (V env base A1) as [A V']. split; auto; lia.
  - exists h; split; [auto|split; [auto|split; [lia|]]]. auto.
Qed.

Lemma reduce_heap_ok m limit h : (2 <= limit)%nat -> wf_heap h ->
  exists out, reduce_heap m limit h = Some out /\ wf_heap out /\
    (max_count out <= limit)%nat /\
    (forall env base, above base h -> above base out /\ heap_val env base out = heap_val env base h).
Proof. intros; apply reduce_heap_loop_ok; auto. Qed.

(** the loop never ends for a limit of 1 *)
Lemma reduce_limit1_diverges m fuel :
  reduce_heap_loop fuel m 1 [(0, [BVar 0; BVar 1])] = None.
Proof.
  induction fuel as [|f IH]; auto.
  cbn [reduce_heap_loop]. change (Nat.ltb 1 (max_count [(0, [BVar 0; BVar 1])])) with true.
  destruct m; exact IH.
Qed.
