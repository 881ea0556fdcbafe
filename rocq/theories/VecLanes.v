(** The generated vector code works lane by lane. *)

Require Import ZArith List Bool Lia.
From Verif Require Import VecModel VecSpec VecProofs.
Import ListNotations.
Open Scope Z_scope.

Section Lanes.
  Variable ops : nat -> list Z -> option Z.

  (** value of [e] on the lanes [b], [b+1], ..., [b+k-1] *)
  Definition on_lanes (args : list nat) (venv : nat -> option (list Z))
    (e : expr) (b k : nat) : option (list Z) :=
    all_some (map (fun j => eval ops (lane args venv (b + j)) e) (seq 0 k)).

  Lemma on_lanes_len : forall args venv e b k l,
    on_lanes args venv e b k = Some l -> length l = k.
  Proof.
    intros args venv e b k l H. apply all_some_len in H.
    rewrite H, map_length, seq_length. reflexivity.
  Qed.

  Lemma sized_on_lanes : forall args venv e b k,
    sized k (on_lanes args venv e b k) = on_lanes args venv e b k.
  Proof.
    intros. unfold sized.
    destruct (on_lanes args venv e b k) as [l|] eqn:E; [|reflexivity].
    rewrite (on_lanes_len _ _ _ _ _ _ E), Nat.eqb_refl. reflexivity.
  Qed.

  Lemma nth_error_seq0 : forall k j, (j < k)%nat ->
    nth_error (seq 0 k) j = Some j.
  Proof.
    intros k j H. rewrite (nth_error_nth' _ 0%nat) by (rewrite seq_length; lia).
    rewrite seq_nth by lia. reflexivity.
  Qed.

  Lemma on_lanes_nth : forall args venv e b k l j,
    on_lanes args venv e b k = Some l -> (j < k)%nat ->
    nth_error l j = eval ops (lane args venv (b + j)) e.
  Proof.
    intros args venv e b k l j H Hj. unfold on_lanes in H.
    apply (all_some_nth _ _ _ _ _ j j H). apply nth_error_seq0; assumption.
  Qed.

  Lemma on_lanes_none : forall args venv e b k,
    on_lanes args venv e b k = None ->
    exists j, (j < k)%nat /\ eval ops (lane args venv (b + j)) e = None.
  Proof.
    intros args venv e b k H. apply all_some_none in H.
    apply in_map_iff in H as (j & Hj & Hi). apply in_seq in Hi.
    exists j. split; [lia | assumption].
  Qed.

  (** column of the operand vectors, lane by lane *)
  Lemma transpose : forall args venv b k o l,
    match all_some (map (fun a => on_lanes args venv a b k) l) with
    | Some vs =>
        all_some (map (fun j => match column vs j with
                                | Some xs => ops o xs
                                | None => None
                                end) (seq 0 k))
    | None => None
    end
    = on_lanes args venv (EOp o l) b k.
  Proof.
    intros args venv b k o l. unfold on_lanes at 2. cbn [eval].
    destruct (all_some (map (fun a => on_lanes args venv a b k) l)) as [vs|] eqn:E.
    - apply all_some_map_ext. intros j Hj. apply in_seq in Hj.
      assert (C : column vs j
                  = all_some (map (eval ops (lane args venv (b + j))) l)).
      { unfold column. clear o. revert vs E.
        induction l as [|a l IH]; intros vs E; cbn in E.
        - injection E as <-. reflexivity.
        - destruct (on_lanes args venv a b k) as [v|] eqn:Ea; [|discriminate].
          destruct (all_some (map (fun a => on_lanes args venv a b k) l))
            as [ws|]; [|discriminate].
          injection E as <-. cbn [map all_some].
          rewrite (on_lanes_nth _ _ _ _ _ _ j Ea) by lia.
          rewrite (IH ws eq_refl). reflexivity. }
      rewrite C. reflexivity.
    - apply all_some_none in E. apply in_map_iff in E as (a & Ha & Hi).
      apply on_lanes_none in Ha as (j & Hj & Hv).
      symmetry. apply all_some_none. apply in_map_iff. exists j.
      split; [|apply in_seq; lia].
      replace (all_some _) with (@None (list Z)); [reflexivity|].
      symmetry. apply all_some_none. apply in_map_iff. exists a. auto.
  Qed.

  Lemma all_some_seq_map : forall A (f : nat -> option A) b k,
    all_some (map (fun j => f (b + j)%nat) (seq 0 k)) = all_some (map f (seq b k)).
  Proof.
    intros A f b k. revert b. induction k as [|k IH]; intros b; [reflexivity|].
    cbn [seq map all_some]. rewrite Nat.add_0_r.
    destruct (f b); [|reflexivity].
    rewrite <- (IH (S b)). rewrite <- seq_shift, map_map.
    replace (map (fun x => f (b + S x)%nat) (seq 0 k))
      with (map (fun j => f (S b + j)%nat) (seq 0 k)); [reflexivity|].
    apply map_ext. intros j. f_equal. lia.
  Qed.

  Definition well_sized (args : list nat) (venv : nat -> option (list Z))
    (n : nat) : Prop :=
    forall v, In v args -> exists l, venv v = Some l /\ length l = n.

  Lemma memb_In : forall v l, memb v l = true <-> In v l.
  Proof.
    intros v l. unfold memb. rewrite existsb_exists. split.
    - intros (x & Hx & E). apply Nat.eqb_eq in E. subst. assumption.
    - intros H. exists v. split; [assumption | apply Nat.eqb_refl].
  Qed.

  Lemma lane_arg : forall args venv n v l j,
    memb v args = true -> venv v = Some l -> length l = n -> (j < n)%nat ->
    lane args venv j v = Some (nth j l 0).
  Proof.
    intros args venv n v l j Hm Hv Hl Hj. unfold lane. rewrite Hm, Hv.
    apply nth_error_nth'. lia.
  Qed.

  Lemma whole_vector : forall args venv n v l,
    memb v args = true -> venv v = Some l -> length l = n ->
    on_lanes args venv (EVar v) 0 n = Some l.
  Proof.
    intros args venv n v l Hm Hv Hl. unfold on_lanes. cbn [eval].
    rewrite (all_some_intro _ _ _ (fun j => nth j l 0)).
    - f_equal. subst n. clear. induction l as [|x l IH]; [reflexivity|].
      cbn [length seq map nth]. f_equal. rewrite <- seq_shift, map_map.
      exact IH.
    - intros j Hj. apply in_seq in Hj.
      apply (lane_arg args venv n v l); auto. lia.
  Qed.

  Lemma concat_single : forall A (l : list A), concat (map (fun x => [x]) l) = l.
  Proof. induction l as [|x l IH]; cbn; congruence. Qed.

  Lemma asm_lanes : forall (env : nat -> option (list Z)) (f : nat -> option Z)
    (g : nat -> vexpr) k,
    (forall j, (j < k)%nat ->
       evalv ops env (g j) = match f j with Some z => Some [z] | None => None end) ->
    evalv ops env (VAsm (map g (seq 0 k))) = all_some (map f (seq 0 k)).
  Proof.
    intros env f g k H. cbn [evalv]. rewrite map_map.
    rewrite (all_some_map_ext _ _ _
               (fun j => match f j with Some z => Some [z] | None => None end)).
    2:{ intros j Hj. apply in_seq in Hj. apply H. lia. }
    clear H. induction (seq 0 k) as [|j l IH]; [reflexivity|].
    cbn [map all_some]. destruct (f j) as [z|]; [|reflexivity].
    destruct (all_some (map (fun j => match f j with
                                      | Some z => Some [z]
                                      | None => None end) l)) as [vs|].
    - cbn [concat app]. destruct (all_some (map f l)); [|discriminate].
      injection IH as ->. reflexivity.
    - destruct (all_some (map f l)); [discriminate | reflexivity].
  Qed.

  Lemma evalv_asm_singleton : forall env g,
    evalv ops env (VAsm [g]) = evalv ops env g.
  Proof.
    intros env g. cbn [evalv map all_some].
    destruct (evalv ops env g); [|reflexivity].
    cbn [concat]. rewrite app_nil_r. reflexivity.
  Qed.

  Lemma evalv_assembling : forall env l,
    evalv ops env (assembling_vector l) = evalv ops env (VAsm l).
  Proof.
    intros env [|x [|y l]]; try reflexivity.
    symmetry. apply evalv_asm_singleton.
  Qed.

  Lemma sub_arg_lanes : forall args venv n k i v,
    memb v args = true -> well_sized args venv n -> (1 <= k)%nat ->
    (i * k + k <= n)%nat ->
    evalv ops venv (sub_arg n k i v) = on_lanes args venv (EVar v) (i * k) k.
  Proof.
    intros args venv n k i v Hm Hw Hk Hi.
    destruct (Hw v) as (l & Hv & Hl); [apply memb_In; assumption|].
    unfold sub_arg. destruct (Nat.eqb_spec k n) as [->|Hn].
    - assert (i = 0)%nat by nia. subst i.
      cbn [evalv]. rewrite Nat.mul_0_l.
      rewrite (whole_vector args venv n v l Hm Hv Hl). assumption.
    - destruct (Nat.eqb_spec k 1) as [->|Hk1].
      + cbn [evalv]. rewrite Hv. unfold on_lanes. cbn [seq map all_some eval].
        rewrite Nat.add_0_r, Nat.mul_1_r.
        rewrite (lane_arg args venv n v l i Hm Hv Hl) by lia.
        rewrite (nth_error_nth' l 0) by lia. reflexivity.
      + rewrite evalv_assembling.
        apply asm_lanes. intros j Hj. cbn [evalv eval]. rewrite Hv.
        rewrite (lane_arg args venv n v l (i * k + j) Hm Hv Hl) by lia.
        rewrite (nth_error_nth' l 0) by lia. reflexivity.
  Qed.

  Lemma on_lanes_repeat : forall args venv c b k,
    on_lanes args venv (ECst c) b k = Some (repeat c k).
  Proof.
    intros. unfold on_lanes. cbn [eval].
    rewrite (all_some_intro _ _ _ (fun _ => c)) by reflexivity.
    f_equal. rewrite <- (seq_length k 0) at 2.
    induction (seq 0 k); cbn; congruence.
  Qed.

  Lemma on_lanes_and : forall args venv a b c k,
    on_lanes args venv (EAnd a b) c k
    = match on_lanes args venv a c k, on_lanes args venv b c k with
      | Some x, Some y =>
          Some (map (fun p => b2z (truth (fst p) && truth (snd p)))
                    (combine x y))
      | _, _ => None
      end.
  Proof.
    intros args venv a b c k. unfold on_lanes.
    induction (seq 0 k) as [|j l IH]; [reflexivity|].
    cbn [map all_some]. cbn [eval].
    destruct (eval ops (lane args venv (c + j)) a) as [x|]; [|reflexivity].
    destruct (eval ops (lane args venv (c + j)) b) as [y|].
    - cbn [eval] in IH. rewrite IH.
      destruct (all_some (map (fun j => eval ops (lane args venv (c + j)) a) l));
        [|reflexivity].
      destruct (all_some (map (fun j => eval ops (lane args venv (c + j)) b) l));
        reflexivity.
    - destruct (all_some (map (fun j => eval ops (lane args venv (c + j)) a) l));
        reflexivity.
  Qed.

  Lemma on_lanes_not : forall args venv a c k,
    on_lanes args venv (ENot a) c k
    = match on_lanes args venv a c k with
      | Some x => Some (map (fun z => b2z (negb (truth z))) x)
      | None => None
      end.
  Proof.
    intros args venv a c k. unfold on_lanes.
    induction (seq 0 k) as [|j l IH]; [reflexivity|].
    cbn [map all_some]. cbn [eval].
    destruct (eval ops (lane args venv (c + j)) a) as [x|]; [|reflexivity].
    cbn [eval] in IH. rewrite IH.
    destruct (all_some (map (fun j => eval ops (lane args venv (c + j)) a) l));
      reflexivity.
  Qed.

  (** scalar call on the elements [j] of its operands *)
  Lemma call_lane : forall (env : nat -> option (list Z)) f (l : list expr)
    (g : expr -> vexpr) (h : expr -> option Z),
    (forall a, In a l ->
       evalv ops env (g a) = match h a with Some z => Some [z] | None => None end) ->
    evalv ops env (VCall f (map g l))
    = match all_some (map h l) with
      | Some xs => match ops f xs with Some z => Some [z] | None => None end
      | None => None
      end.
  Proof.
    intros env f l g h H. cbn [evalv]. rewrite map_map.
    rewrite (all_some_map_ext _ _ _
               (fun a => match h a with Some z => Some [z] | None => None end)).
    2:{ intros a Ha. rewrite (H a Ha). destruct (h a); reflexivity. }
    clear H.
    assert (E : match all_some (map (fun a => match h a with
                              | Some z => Some [z] | None => None end) l) with
                | Some vs => Some (concat vs)
                | None => None
                end = all_some (map h l)).
    { induction l as [|a l IH]; [reflexivity|]. cbn [map all_some].
      destruct (h a) as [z|]; [|reflexivity].
      destruct (all_some (map (fun a => match h a with
                  | Some z => Some [z] | None => None end) l)) as [vs|].
      - rewrite <- IH. reflexivity.
      - rewrite <- IH. reflexivity. }
    rewrite <- E.
    destruct (all_some _) as [vs|]; reflexivity.
  Qed.

  Lemma replicate_lanes : forall args venv n k i e,
    well_sized args venv n -> (1 <= k)%nat -> (i * k + k <= n)%nat ->
    flat_calls e = true ->
    evalv ops venv (replicate n k i args e) = on_lanes args venv e (i * k) k.
  Proof.
    intros args venv n k i e Hw Hk Hi.
    assert (L : forall l,
      Forall (fun e => flat_calls e = true ->
                evalv ops venv (replicate n k i args e)
                = on_lanes args venv e (i * k) k) l ->
      forallb flat_calls l = true ->
      map (fun a => sized k (evalv ops venv a)) (map (replicate n k i args) l)
      = map (fun a => on_lanes args venv a (i * k) k) l).
    { intros l HF Hb. rewrite map_map. apply map_ext_in. intros a Ha.
      rewrite Forall_forall in HF. rewrite forallb_forall in Hb.
      rewrite (HF a Ha (Hb a Ha)). apply sized_on_lanes. }
    induction e as [v|c|o l IH|a b IHa IHb|a IHa|f l IH] using expr_ind2;
      intros Hf; cbn [flat_calls] in Hf; cbn [replicate].
    - destruct (memb v args) eqn:Em.
      + apply sub_arg_lanes; assumption.
      + cbn [evalv]. unfold on_lanes. cbn [eval]. symmetry.
        apply all_some_none. apply in_map_iff. exists 0%nat.
        split; [|apply in_seq; lia]. unfold lane. rewrite Em. reflexivity.
    - cbn [evalv]. rewrite on_lanes_repeat. reflexivity.
    - cbn [evalv]. rewrite (L l IH Hf). apply transpose.
    - apply andb_true_iff in Hf as [Ha Hb].
      cbn [evalv]. rewrite (IHa Ha), (IHb Hb), !sized_on_lanes, on_lanes_and.
      reflexivity.
    - cbn [evalv]. rewrite (IHa Hf), sized_on_lanes, on_lanes_not. reflexivity.
    - rewrite forallb_forall in Hf. rewrite Forall_forall in IH.
      destruct (Nat.ltb_spec 1 k) as [Hk1|Hk1].
      + assert (Hnc : forall j, evalv ops venv
            (VCall f (map (fun a => if is_call a then
               (fix inner (a : expr) : vexpr :=
                  match a with
                  | ECall g m =>
                      VCall g (map (fun b => if is_call b then inner b
                                   else replicate n k i args b) m)
                  | _ => replicate n k i args a
                  end) a else VElt (replicate n k i args a) j) l))
          = evalv ops venv
              (VCall f (map (fun a => VElt (replicate n k i args a) j) l))).
        { intros j. do 2 f_equal. apply map_ext_in. intros a Ha.
          pose proof (Hf a Ha) as Hfa. apply andb_true_iff in Hfa as [Hc _].
          apply negb_true_iff in Hc. rewrite Hc. reflexivity. }
        destruct (all_some (map (fun a => on_lanes args venv a (i * k) k) l))
          as [vs|] eqn:E.
        * unfold on_lanes. apply asm_lanes. intros j Hj. rewrite Hnc.
          rewrite (call_lane venv f l _
                     (eval ops (lane args venv (i * k + j)))).
          { cbn [eval].
            destruct (all_some (map (eval ops (lane args venv (i * k + j))) l));
              reflexivity. }
          intros a Ha.
          pose proof (Hf a Ha) as Hfa. apply andb_true_iff in Hfa as [_ Hfl].
          cbn [evalv]. rewrite (IH a Ha Hfl).
          destruct (on_lanes args venv a (i * k) k) as [v|] eqn:Ea.
          -- rewrite (on_lanes_nth _ _ _ _ _ _ j Ea Hj). reflexivity.
          -- exfalso.
             assert (F : all_some (map (fun a => on_lanes args venv a (i * k) k) l)
                         = None).
             { apply all_some_none. apply in_map_iff. exists a. auto. }
             congruence.
        * pose proof (transpose args venv (i * k) k f l) as T.
          rewrite E in T.
          change (on_lanes args venv (ECall f l) (i * k) k)
            with (on_lanes args venv (EOp f l) (i * k) k).
          rewrite <- T. cbn [evalv].
          apply all_some_none in E. apply in_map_iff in E as (a & Ea & Ha).
          pose proof (Hf a Ha) as Hfa. apply andb_true_iff in Hfa as [_ Hfl].
          replace (all_some _) with (@None (list (list Z))); [reflexivity|].
          symmetry. apply all_some_none. rewrite map_map. apply in_map_iff.
          exists 0%nat. split; [|apply in_seq; lia].
          rewrite Hnc. cbn [evalv]. rewrite map_map.
          replace (all_some _) with (@None (list (list Z))); [reflexivity|].
          symmetry. apply all_some_none. apply in_map_iff. exists a.
          split; [|assumption]. cbn [evalv].
          rewrite (IH a Ha Hfl), Ea. reflexivity.
      + assert (k = 1)%nat by lia. subst k.
        unfold on_lanes. cbn [seq map all_some].
        rewrite (call_lane venv f l _
                   (eval ops (lane args venv (i * 1 + 0)))).
        * cbn [eval].
          destruct (all_some (map (eval ops (lane args venv (i * 1 + 0))) l));
            [|reflexivity].
          destruct (ops f l0); reflexivity.
        * intros a Ha.
          pose proof (Hf a Ha) as Hfa. apply andb_true_iff in Hfa as [Hc Hfl].
          apply negb_true_iff in Hc.
          assert (Hin : evalv ops venv (replicate n 1 i args a)
                  = match eval ops (lane args venv (i * 1 + 0)) a with
                    | Some z => Some [z] | None => None end).
          { rewrite (IH a Ha Hfl). reflexivity. }
          destruct a; try exact Hin. discriminate Hc.
  Qed.

  (** all chunks together *)
  Lemma on_lanes_app : forall args venv e b k m,
    on_lanes args venv e b (k + m)
    = match on_lanes args venv e b k, on_lanes args venv e (b + k) m with
      | Some x, Some y => Some (x ++ y)
      | _, _ => None
      end.
  Proof.
    intros args venv e b k m. unfold on_lanes.
    rewrite (all_some_seq_map _ (fun j => eval ops (lane args venv j) e) b (k + m)).
    rewrite (all_some_seq_map _ (fun j => eval ops (lane args venv j) e) b k).
    rewrite (all_some_seq_map _ (fun j => eval ops (lane args venv j) e) (b + k) m).
    revert b. induction k as [|k IH]; intros b.
    - cbn. rewrite Nat.add_0_r. destruct (all_some _); reflexivity.
    - cbn [Nat.add seq map all_some].
      destruct (eval ops (lane args venv b) e); [|reflexivity].
      rewrite (IH (S b)). replace (S b + k)%nat with (b + S k)%nat by lia.
      destruct (all_some (map _ (seq (S b) k))); [|reflexivity].
      destruct (all_some (map _ (seq (b + S k) m))); reflexivity.
  Qed.

  Lemma chunks_lanes : forall args venv n k e c,
    well_sized args venv n -> (1 <= k)%nat -> (c * k <= n)%nat ->
    flat_calls e = true ->
    evalv ops venv (assembling_vector
      (map (fun i => replicate n k i args e) (seq 0 c)))
    = on_lanes args venv e 0 (c * k).
  Proof.
    intros args venv n k e c Hw Hk Hc Hf. rewrite evalv_assembling.
    induction c as [|c IH].
    - reflexivity.
    - rewrite seq_S, map_app. cbn [evalv map] in *.
      rewrite map_app. cbn [map].
      rewrite (replicate_lanes args venv n k (0 + c) e) by (try assumption; lia).
      replace (S c * k)%nat with (c * k + k)%nat by lia.
      rewrite on_lanes_app, <- IH by lia. cbn [Nat.add].
      assert (A : forall A (l : list (option (list A))) o,
        match all_some (l ++ [o]) with
        | Some vs => Some (concat vs) | None => None end
        = match match all_some l with
                | Some vs => Some (concat vs) | None => None end, o with
          | Some x, Some y => Some (x ++ y)
          | _, _ => None
          end).
      { clear. intros A l o. induction l as [|[x|] l IH]; cbn [app all_some].
        - destruct o; [cbn; rewrite app_nil_r|]; reflexivity.
        - destruct (all_some (l ++ [o])) as [a|];
          destruct (all_some l) as [b|]; destruct o as [o|];
            cbn [concat app] in *; try discriminate; try reflexivity.
          injection IH as ->. rewrite app_assoc. reflexivity.
        - reflexivity. }
      apply A.
  Qed.

  (** ** Fallback on the masked lanes *)

  Lemma set_nth_len : forall l i z, length (set_nth l i z) = length l.
  Proof. induction l as [|x l IH]; intros [|i] z; cbn; auto. Qed.

  Lemma nth_set_nth : forall l i z j,
    nth_error (set_nth l i z) j
    = if Nat.eqb i j && Nat.ltb j (length l) then Some z else nth_error l j.
  Proof.
    induction l as [|x l IH]; intros i z j.
    - assert (E : Nat.ltb j (length (@nil Z)) = false) by (apply Nat.ltb_ge; cbn; lia).
      rewrite E, andb_false_r. destruct i; reflexivity.
    - destruct i as [|i], j as [|j]; try reflexivity.
      cbn [set_nth nth_error]. rewrite IH. reflexivity.
  Qed.

  Definition picked (cb : nat -> option Z) (mask res out : list Z)
    (lo hi : nat) : Prop :=
    length out = length res
    /\ forall j, (j < length res)%nat ->
       nth_error out j =
         if Nat.leb lo j && Nat.ltb j hi
            && negb (truth (nth j mask 1)) then cb j
         else nth_error res j.

  Lemma ocl_lanes_spec : forall cb mask c lo res,
    (lo + c <= length mask)%nat -> length res = length mask ->
    (forall j, (j < length mask)%nat -> truth (nth j mask 1) = false ->
       exists z, cb j = Some z) ->
    exists out, ocl_lanes (seq lo c) cb mask res = Some out
      /\ picked cb mask res out lo (lo + c).
  Proof.
    intros cb mask c. induction c as [|c IH]; intros lo res Hc Hl Hcb.
    - exists res. split; [reflexivity|]. split; [reflexivity|].
      intros j Hj. destruct (Nat.leb_spec lo j); cbn [andb]; [|reflexivity].
      destruct (Nat.ltb_spec j (lo + 0)); [lia | reflexivity].
    - cbn [seq ocl_lanes].
      rewrite (nth_error_nth' mask 1) by lia.
      destruct (truth (nth lo mask 1)) eqn:Et; cbn [negb].
      + destruct (IH (S lo) res) as (out & Eo & Lo & Ho); [lia | lia | auto |].
        exists out. split; [exact Eo|]. split; [exact Lo|].
        intros j Hj. rewrite (Ho j Hj).
        replace (S lo + c)%nat with (lo + S c)%nat by lia.
        destruct (Nat.eq_dec j lo) as [->|Hne].
        * rewrite Et. rewrite !andb_false_r. reflexivity.
        * destruct (Nat.leb_spec (S lo) j), (Nat.leb_spec lo j); try lia; reflexivity.
      + destruct (Hcb lo) as [z Ez]; [lia | assumption|]. rewrite Ez.
        destruct (IH (S lo) (set_nth res lo z)) as (out & Eo & Lo & Ho);
          [lia | rewrite set_nth_len; lia | auto |].
        exists out. split; [exact Eo|].
        rewrite set_nth_len in Lo, Ho. split; [exact Lo|].
        intros j Hj. rewrite (Ho j Hj). rewrite nth_set_nth.
        replace (S lo + c)%nat with (lo + S c)%nat by lia.
        destruct (Nat.eq_dec j lo) as [->|Hne].
        * rewrite Et, Nat.eqb_refl.
          destruct (Nat.leb_spec (S lo) lo); [lia|].
          destruct (Nat.leb_spec lo lo); [|lia].
          destruct (Nat.ltb_spec lo (length res)); [|lia].
          destruct (Nat.ltb_spec lo (lo + S c)); [|lia].
          cbn. symmetry; assumption.
        * destruct (Nat.eqb_spec lo j); [lia|].
          destruct (Nat.leb_spec (S lo) j), (Nat.leb_spec lo j); try lia; reflexivity.
  Qed.

  (** the counted loop visits the same lanes *)
  Lemma c_lanes_ocl : forall cb mask c lo res fuel,
    (c < fuel)%nat ->
    c_lanes fuel (Z.of_nat (lo + c)) cb mask res (Z.of_nat lo)
    = ocl_lanes (seq lo c) cb mask res.
  Proof.
    intros cb mask c. induction c as [|c IH]; intros lo res fuel Hf.
    - destruct fuel as [|fuel]; [lia|]. cbn [c_lanes seq ocl_lanes].
      destruct (Z.ltb_spec (Z.of_nat lo) (Z.of_nat (lo + 0))); [lia|reflexivity].
    - destruct fuel as [|fuel]; [lia|]. cbn [c_lanes seq ocl_lanes].
      destruct (Z.ltb_spec (Z.of_nat lo) (Z.of_nat (lo + S c))); [|lia].
      rewrite Nat2Z.id. destruct (nth_error mask lo) as [m|]; [|reflexivity].
      replace (Z.of_nat lo + 1) with (Z.of_nat (S lo)) by lia.
      replace (Z.of_nat (lo + S c)) with (Z.of_nat (S lo + c)) by lia.
      destruct (negb (truth m)).
      + destruct (cb lo); [|reflexivity]. apply IH. lia.
      + apply IH. lia.
  Qed.

  Lemma wrappers_agree : forall n path mask cb,
    c_wrapper n path mask cb = ocl_wrapper n path mask cb.
  Proof.
    intros n path mask cb. unfold c_wrapper, ocl_wrapper.
    destruct path as [r|]; [|reflexivity]. destruct mask as [m|]; [|reflexivity].
    destruct (forallb truth m); [reflexivity|].
    change 0 with (Z.of_nat 0). change n with (0 + n)%nat at 2.
    apply c_lanes_ocl. lia.
  Qed.

  Lemma wrapper_spec : forall n path mask cb,
    length path = n -> length mask = n ->
    (forall j, (j < n)%nat -> truth (nth j mask 1) = false ->
       exists z, cb j = Some z) ->
    exists out, ocl_wrapper n (Some path) (Some mask) cb = Some out
      /\ length out = n
      /\ forall j, (j < n)%nat ->
           nth_error out j = if truth (nth j mask 1) then nth_error path j
                             else cb j.
  Proof.
    intros n path mask cb Hp Hm Hcb. unfold ocl_wrapper.
    destruct (forallb truth mask) eqn:Ef.
    - exists path. split; [reflexivity|]. split; [assumption|].
      intros j Hj. rewrite forallb_forall in Ef.
      rewrite (Ef (nth j mask 1)); [reflexivity|]. apply nth_In. lia.
    - destruct (ocl_lanes_spec cb mask n 0 path) as (out & Eo & Lo & Ho);
        [lia | lia | intros j Hj; apply Hcb; lia |].
      exists out. split; [exact Eo|]. split; [lia|].
      intros j Hj. rewrite (Ho j) by lia.
      destruct (Nat.leb_spec 0 j); [|lia].
      destruct (Nat.ltb_spec j (0 + n)); [|lia]. cbn [andb].
      destruct (truth (nth j mask 1)); reflexivity.
  Qed.

  (** [no_scalar_fallback] only for masks which hold in every lane *)
  Lemma no_fallback_true : forall m env l,
    no_scalar_fallback m = true -> evalv ops env m = Some l ->
    forallb truth l = true.
  Proof.
    fix IH 1. intros m env l Hn He. destruct m; try discriminate Hn.
    - cbn in Hn, He. injection He as <-. exact Hn.
    - cbn [no_scalar_fallback] in Hn. cbn [evalv] in He.
      destruct (all_some (map (evalv ops env) l0)) as [vs|] eqn:E; [|discriminate].
      injection He as <-. revert vs E Hn.
      induction l0 as [|x r IHr]; intros vs E Hn.
      + cbn in E. injection E as <-. reflexivity.
      + cbn [forallb] in Hn. apply andb_true_iff in Hn as [H1 H2].
        cbn [map all_some] in E.
        destruct (evalv ops env x) as [y|] eqn:Ex; [|discriminate].
        destruct (all_some (map (evalv ops env) r)) as [ys|]; [|discriminate].
        injection E as <-. cbn [concat]. rewrite forallb_app.
        rewrite (IH x env y H1 Ex), (IHr ys eq_refl H2). reflexivity.
  Qed.
End Lanes.
