(** Properties of the static vectorizer, of the vector wrappers, of function
    inlining and of the element-wise array functions. *)

Require Import ZArith List Bool Lia.
From Verif Require Import VecModel VecSpec VecProofs VecLanes.
Import ListNotations.
Open Scope Z_scope.

(** ** The extracted path *)

(** Whenever every validity condition holds on the arguments, the scalar
    scheme returns what the linear path computes. *)
Theorem vector_path_sound_partial : forall ops is_input s r z,
  branchy s = true ->
  (forall v, is_input v = true -> ~ In v (assigned s)) ->
  (forall v y, r v = Some y -> is_input v = true) ->
  computes ops s r z ->
  let p := fst (extract s []) in
  Forall (fun c => exists y, eval ops r c = Some y /\ truth y = true) (masks p) ->
  exists e, lin p = Some e
    /\ eval ops r (instanciate is_input (vmap p) e) = Some z.
Proof.
  intros ops is_input s r z Hb Hi Hr Hc p Hm.
  assert (Ha : forall v, In v (assigned s) -> r v = None).
  { intros v Hv. destruct (r v) as [y|] eqn:E; [|reflexivity].
    exfalso. exact (Hi v (Hr v y E) Hv). }
  destruct (extract_sound ops r s (Ret z) Hc r [] Hb Ha (binds_nil ops r)
              (fun v y H => H) Hm) as (e & El & Ev).
  exists e. split; [exact El|]. subst p.
  rewrite (instanciate_id is_input s [] e Hi). exact Ev.
Qed.

(** ** Flat calls are kept by substitution *)

Lemma no_call_flat : forall e, no_call e = true ->
  flat_calls e = true /\ is_call e = false.
Proof.
  induction e as [v|c|o l IH|a b IHa IHb|a IHa|f l IH] using expr_ind2;
    cbn [no_call flat_calls is_call]; intros H; try discriminate H; auto.
  - split; [|reflexivity]. apply forallb_forall. intros x Hx.
    rewrite forallb_forall in H. rewrite Forall_forall in IH.
    apply IH; auto.
  - apply andb_true_iff in H as [H1 H2].
    rewrite (proj1 (IHa H1)), (proj1 (IHb H2)). auto.
  - split; [apply IHa; assumption | reflexivity].
Qed.

Definition simple_map (m : mapping) : Prop :=
  forall v e, lookup m v = Some e -> no_call e = true.

Lemma copy_no_call : forall m e, simple_map m -> no_call e = true ->
  no_call (copy m e) = true.
Proof.
  intros m e Hm.
  induction e as [v|c|o l IH|a b IHa IHb|a IHa|f l IH] using expr_ind2;
    cbn [no_call copy]; intros H; try discriminate H; auto.
  - destruct (lookup m v) as [x|] eqn:E; [eapply Hm; eauto | reflexivity].
  - rewrite forallb_forall in H. apply forallb_forall. intros x Hx.
    apply in_map_iff in Hx as (y & <- & Hy).
    rewrite Forall_forall in IH. auto.
  - apply andb_true_iff in H as [H1 H2]. rewrite (IHa H1), (IHb H2). reflexivity.
Qed.

Lemma copy_flat : forall m e, simple_map m -> flat_calls e = true ->
  flat_calls (copy m e) = true.
Proof.
  intros m e Hm.
  induction e as [v|c|o l IH|a b IHa IHb|a IHa|f l IH] using expr_ind2;
    cbn [flat_calls copy]; intros H; auto.
  - destruct (lookup m v) as [x|] eqn:E; [|reflexivity].
    apply no_call_flat. eapply Hm; eauto.
  - rewrite forallb_forall in H. apply forallb_forall. intros x Hx.
    apply in_map_iff in Hx as (y & <- & Hy).
    rewrite Forall_forall in IH. auto.
  - apply andb_true_iff in H as [H1 H2]. rewrite (IHa H1), (IHb H2). reflexivity.
  - rewrite forallb_forall in H. apply forallb_forall. intros x Hx.
    apply in_map_iff in Hx as (y & <- & Hy).
    pose proof (H y Hy) as E. apply andb_true_iff in E as [E1 E2].
    rewrite Forall_forall in IH. rewrite (IH y Hy E2), andb_true_r.
    apply negb_true_iff in E1. apply negb_true_iff.
    destruct y; try exact E1. cbn [copy].
    destruct (lookup m v) as [w|] eqn:E; [|reflexivity].
    apply (no_call_flat w). eapply Hm; eauto.
Qed.

Lemma extract_flat : forall s lm,
  flat_stmt s = true -> simple_map lm ->
  (forall e, lin (fst (extract s lm)) = Some e -> flat_calls e = true)
  /\ Forall (fun c => flat_calls c = true) (masks (fst (extract s lm)))
  /\ simple_map (snd (extract s lm)).
Proof.
  induction s as [e|v e|e|l IH|pre c lk t e IHp IHt IHe|i c b _ _]
    using stmt_ind2; intros lm Hs Hm.
  - cbn. split; [discriminate|]. auto.
  - cbn. split; [discriminate|]. split; [constructor|].
    intros w x. cbn [lookup]. destruct (Nat.eqb v w); [|apply Hm].
    intros H. injection H as <-. apply copy_no_call; assumption.
  - cbn. split; [|auto]. intros x H. injection H as <-.
    apply copy_flat; assumption.
  - cbn [flat_stmt] in Hs. revert lm Hm.
    induction IH as [|x l Hx Hl IHl]; intros lm Hm.
    + cbn. split; [discriminate | auto].
    + cbn [forallb] in Hs. apply andb_true_iff in Hs as [H1 H2].
      destruct (Hx lm H1 Hm) as (A1 & A2 & A3).
      destruct (IHl H2 (snd (extract x lm)) A3) as (B1 & B2 & B3).
      destruct (extract_cons x l lm) as [HA HB].
      destruct (final (fst (extract x lm))) eqn:Ef.
      * destruct (HA eq_refl) as (E1 & E2 & _ & E4).
        rewrite E1, E2, E4. auto.
      * destruct (HB eq_refl) as (E1 & E2 & _ & E4).
        rewrite E1, E2, E4. split; [|split; [|assumption]].
        -- intros e. destruct (lin (fst (extract x lm))) as [y|] eqn:El.
           ++ intros H. injection H as <-. auto.
           ++ apply B1.
        -- apply Forall_app. auto.
  - cbn [flat_stmt] in Hs. apply andb_true_iff in Hs as [Hs He].
    apply andb_true_iff in Hs as [Hs Ht]. apply andb_true_iff in Hs as [Hp Hc].
    destruct (IHp lm Hp Hm) as (P1 & P2 & P3).
    cbn [extract]. destruct (extract pre lm) as [pp lm1]. cbn [fst snd] in *.
    destruct (lin pp) as [q|] eqn:El.
    + cbn [fst snd]. rewrite El. auto.
    + destruct lk as [[|]|].
      * destruct (IHt lm1 Ht P3) as (T1 & T2 & T3).
        destruct (extract t lm1) as [p lm2]. cbn [fst snd lin masks] in *.
        split; [assumption|]. split; [|assumption].
        apply Forall_app; split; [assumption|]. repeat constructor; assumption.
      * destruct e as [f|].
        -- destruct (IHe lm1 He P3) as (T1 & T2 & T3).
           destruct (extract f lm1) as [p lm2]. cbn [fst snd lin masks] in *.
           split; [assumption|]. split; [|assumption].
           apply Forall_app; split; [assumption|]. repeat constructor; assumption.
        -- cbn. split; [discriminate|auto].
      * destruct (IHt lm1 Ht P3) as (T1 & T2 & T3).
        destruct (extract t lm1) as [p lm2].
        cbn [fst snd lin masks fallback_policy app] in *.
        split; [assumption|]. split; [|assumption].
        constructor; assumption.
  - cbn. split; [discriminate|auto].
Qed.

Lemma and_merge_flat : forall fuel l e,
  Forall (fun c => flat_calls c = true) l ->
  and_merge fuel l = Some e -> flat_calls e = true.
Proof.
  induction fuel as [|fuel IH]; intros l e Hl H; [discriminate|].
  destruct l as [|a [|b l]]; [discriminate| |].
  - cbn in H. injection H as <-. inversion Hl; assumption.
  - set (L := a :: b :: l) in *.
    change (match and_merge fuel (firstn (Nat.div (length L) 2) L),
                  and_merge fuel (skipn (Nat.div (length L) 2) L) with
            | Some a, Some b => Some (EAnd a b)
            | _, _ => None
            end = Some e) in H.
    destruct (and_merge fuel (firstn _ L)) as [x|] eqn:Ex; [|discriminate].
    destruct (and_merge fuel (skipn _ L)) as [y|] eqn:Ey; [|discriminate].
    injection H as <-. cbn [flat_calls].
    rewrite <- (firstn_skipn (Nat.div (length L) 2) L) in Hl.
    apply Forall_app in Hl as [H1 H2].
    rewrite (IH _ _ H1 Ex), (IH _ _ H2 Ey). reflexivity.
Qed.

Lemma no_fallback_defined : forall ops m env,
  no_scalar_fallback m = true -> exists l, evalv ops env m = Some l.
Proof.
  intros ops. fix IH 1. intros m env Hn. destruct m; try discriminate Hn.
  - cbn. eauto.
  - cbn [no_scalar_fallback] in Hn. cbn [evalv].
    assert (E : exists vs, all_some (map (evalv ops env) l) = Some vs).
    { induction l as [|x r IHr]; [cbn; eauto|].
      cbn [forallb] in Hn. apply andb_true_iff in Hn as [H1 H2].
      cbn [map all_some]. destruct (IH x env H1) as [y ->].
      destruct (IHr H2) as [vs ->]. eauto. }
    destruct E as [vs ->]. eauto.
Qed.

(** ** The vector function *)

(** what [vectorize_scheme] gives, lane by lane *)
Lemma vectorize_scheme_lanes : forall ops is_input s args n k venv path mask,
  flat_stmt s = true ->
  (forall v, is_input v = true -> ~ In v (assigned s)) ->
  well_sized args venv n -> (1 <= k)%nat -> Nat.divide k n ->
  vectorize_scheme is_input s args n k = Some (path, mask) ->
  exists e m, lin (fst (extract s [])) = Some e
    /\ evalv ops venv path = on_lanes ops args venv e 0 n
    /\ evalv ops venv mask = on_lanes ops args venv m 0 n
    /\ (forall r, holds ops r m -> Forall (holds ops r) (masks (fst (extract s [])))).
Proof.
  intros ops is_input s args n k venv path mask Hfl Hi Hw Hk Hd Hv.
  unfold vectorize_scheme in Hv.
  destruct (extract_flat s [] Hfl) as (F1 & F2 & _); [intros v e; discriminate|].
  pose proof (instanciate_id is_input s []) as Hid.
  destruct (extract s []) as [p lm]. cbn [fst] in *.
  destruct (lin p) as [e0|] eqn:El; [|discriminate].
  rewrite (Hid e0 Hi) in Hv.
  assert (Hn : (n / k * k = n)%nat).
  { destruct Hd as [q ->]. rewrite Nat.div_mul by lia. reflexivity. }
  destruct (match masks p with [] => Some (ECst 1) | _ => _ end) as [m|] eqn:Em;
    [|discriminate].
  injection Hv as <- <-.
  assert (Hm : flat_calls m = true
               /\ forall r, holds ops r m -> Forall (holds ops r) (masks p)).
  { destruct (masks p) as [|c l] eqn:Ec.
    - injection Em as <-. split; [reflexivity|]. constructor.
    - split; [eapply and_merge_flat; eauto|].
      intros r Hh.
      destruct (and_merge_spec ops (length (c :: l)) (c :: l) r)
        as (e & Ee & He & _); [discriminate | lia |].
      rewrite Em in Ee. injection Ee as <-. apply He. assumption. }
  destruct Hm as [Hm1 Hm2].
  exists e0, m. split; [reflexivity|]. split; [|split; [|exact Hm2]].
  - rewrite (chunks_lanes ops args venv n k e0) by (auto; lia).
    rewrite Hn. reflexivity.
  - rewrite (chunks_lanes ops args venv n k m) by (auto; lia).
    rewrite Hn. reflexivity.
Qed.

Lemma lane_inputs : forall args venv j is_input v y,
  (forall v, In v args -> is_input v = true) ->
  lane args venv j v = Some y -> is_input v = true.
Proof.
  intros args venv j is_input v y Ha H. apply Ha. unfold lane in H.
  destruct (memb v args) eqn:E; [|discriminate]. apply memb_In. assumption.
Qed.

(** A vector function which returns gives in every lane the result of the
    scalar function, for every vector size, every sub-vector size dividing it,
    and both wrappers. *)
Theorem vector_function_lanes_partial :
  forall ops lang is_input s args n k venv cb f out,
  branchy s = true -> flat_stmt s = true ->
  (forall v, is_input v = true -> ~ In v (assigned s)) ->
  (forall v, In v args -> is_input v = true) ->
  well_sized args venv n -> (1 <= k)%nat -> Nat.divide k n ->
  (forall j, (j < n)%nat -> computes ops s (lane args venv j) (f j)) ->
  (forall j, (j < n)%nat -> cb j = Some (f j)) ->
  (vector_implementation ops lang is_input s args n k venv cb = Some out \/
   vectorize_function_scheme ops is_input s args n k venv cb = Some out) ->
  length out = n /\ forall j, (j < n)%nat -> nth_error out j = Some (f j).
Proof.
  intros ops lang is_input s args n k venv cb f out
         Hb Hfl Hi Ha Hw Hk Hd Hs Hcb Hout.
  assert (G : forall path mask l m,
    vectorize_scheme is_input s args n k = Some (path, mask) ->
    evalv ops venv path = Some l -> evalv ops venv mask = Some m ->
    length l = n /\ length m = n /\
    forall j, (j < n)%nat -> truth (nth j m 1) = true ->
      nth_error l j = Some (f j)).
  { intros path mask l m Hv El Em.
    destruct (vectorize_scheme_lanes ops is_input s args n k venv path mask
                Hfl Hi Hw Hk Hd Hv) as (e & c & Le & Pe & Pm & Hh).
    rewrite El in Pe. rewrite Em in Pm. symmetry in Pe, Pm.
    pose proof (on_lanes_len _ _ _ _ _ _ _ Pe) as L1.
    pose proof (on_lanes_len _ _ _ _ _ _ _ Pm) as L2.
    split; [assumption|]. split; [assumption|].
    intros j Hj Ht.
    rewrite (on_lanes_nth _ _ _ _ _ _ _ j Pe Hj). cbn [Nat.add].
    pose proof (on_lanes_nth _ _ _ _ _ _ _ j Pm Hj) as Hmj. cbn [Nat.add] in Hmj.
    rewrite (nth_error_nth' m 1) in Hmj by lia.
    destruct (vector_path_sound_partial ops is_input s (lane args venv j) (f j))
      as (e' & Le' & Ev); auto.
    { intros v y. apply lane_inputs. assumption. }
    { apply Hh. eexists. split; [symmetry; exact Hmj | exact Ht]. }
    rewrite (instanciate_id is_input s [] e' Hi) in Ev.
    rewrite Le in Le'. injection Le' as <-. exact Ev. }
  assert (W : forall path mask l m,
    vectorize_scheme is_input s args n k = Some (path, mask) ->
    evalv ops venv path = Some l -> evalv ops venv mask = Some m ->
    ocl_wrapper n (Some l) (Some m) cb = Some out ->
    length out = n /\ forall j, (j < n)%nat -> nth_error out j = Some (f j)).
  { intros path mask l m Hv El Em Hwr.
    destruct (G path mask l m Hv El Em) as (L1 & L2 & Hp).
    destruct (wrapper_spec n l m cb L1 L2) as (o & Eo & Lo & Ho).
    { intros j Hj _. exists (f j). auto. }
    rewrite Hwr in Eo. injection Eo as <-. split; [assumption|].
    intros j Hj. rewrite (Ho j Hj).
    destruct (truth (nth j m 1)) eqn:Et; auto. }
  destruct Hout as [Hout|Hout].
  - unfold vector_implementation in Hout.
    destruct (vectorize_scheme is_input s args n k) as [[path mask]|] eqn:Hv;
      [|discriminate].
    destruct (no_scalar_fallback mask) eqn:Hn.
    + destruct (no_fallback_defined ops mask venv Hn) as [m Em].
      pose proof (no_fallback_true ops mask venv m Hn Em) as Ht.
      destruct (G path mask out m eq_refl Hout Em) as (L1 & L2 & Hp).
      split; [assumption|]. intros j Hj. apply Hp; [assumption|].
      rewrite forallb_forall in Ht. apply Ht. apply nth_In. lia.
    + assert (Hout' : ocl_wrapper n (evalv ops venv path) (evalv ops venv mask) cb
                      = Some out)
        by (destruct lang; [rewrite <- wrappers_agree|]; exact Hout).
      clear Hout.
      destruct (evalv ops venv path) as [l|] eqn:El; [|discriminate].
      destruct (evalv ops venv mask) as [m|] eqn:Em; [|discriminate].
      eapply W; eauto.
  - unfold vectorize_function_scheme in Hout.
    destruct (vectorize_scheme is_input s args n k) as [[path mask]|] eqn:Hv;
      [|discriminate].
    rewrite wrappers_agree in Hout.
    destruct (evalv ops venv path) as [l|] eqn:El; [|discriminate].
    destruct (evalv ops venv mask) as [m|] eqn:Em; [|discriminate].
    eapply W; eauto.
Qed.

(** ** The vector function returns *)

(** Schemes without local variables whose expressions read the arguments
    only *)
Fixpoint reads_only (args : list nat) (s : stmt) : Prop :=
  match s with
  | SNode _ => True
  | SAssign _ _ => False
  | SReturn e => incl (vars e) args
  | SSeq l => (fix go l := match l with
                           | [] => True
                           | x :: r => reads_only args x /\ go r
                           end) l
  | SIf pre c _ t e =>
      reads_only args pre /\ incl (vars c) args /\ reads_only args t
      /\ match e with Some f => reads_only args f | None => True end
  | SLoop init c b =>
      reads_only args init /\ incl (vars c) args /\ reads_only args b
  end.

Lemma reads_only_seq : forall args x l,
  reads_only args (SSeq (x :: l)) ->
  reads_only args x /\ reads_only args (SSeq l).
Proof. intros args x l H. exact H. Qed.

Lemma eval_total : forall ops r e,
  (forall o l, exists z, ops o l = Some z) ->
  (forall v, In v (vars e) -> exists z, r v = Some z) ->
  exists z, eval ops r e = Some z.
Proof.
  intros ops r e Ht.
  assert (L : forall l,
    Forall (fun e => (forall v, In v (vars e) -> exists z, r v = Some z) ->
                     exists z, eval ops r e = Some z) l ->
    (forall v, In v (concat (map vars l)) -> exists z, r v = Some z) ->
    exists xs, all_some (map (eval ops r) l) = Some xs).
  { intros l IH Hv. apply all_some_exists. intros a Ha.
    rewrite Forall_forall in IH. apply (IH a Ha). intros v Hi. apply Hv.
    apply in_concat. exists (vars a). split; [apply in_map|]; assumption. }
  induction e as [v|c|o l IH|a b IHa IHb|a IHa|f l IH] using expr_ind2;
    cbn [vars eval]; intros Hv.
  - apply Hv. left; reflexivity.
  - eauto.
  - destruct (L l IH Hv) as [xs ->]. apply Ht.
  - destruct IHa as [x ->]; [intros; apply Hv; apply in_or_app; auto|].
    destruct IHb as [y ->]; [intros; apply Hv; apply in_or_app; auto|]. eauto.
  - destruct (IHa Hv) as [x ->]. eauto.
  - destruct (L l IH Hv) as [xs ->]. apply Ht.
Qed.

(** the branches chosen by the vectorizer end with a Return *)
Lemma extract_tail : forall s args,
  tail_return s = true -> branchy s = true -> reads_only args s ->
  exists e, lin (fst (extract s [])) = Some e /\ incl (vars e) args
    /\ Forall (fun c => incl (vars c) args) (masks (fst (extract s []))).
Proof.
  assert (N : forall s args, no_return s = true -> branchy s = true ->
    reads_only args s ->
    Forall (fun c => incl (vars c) args) (masks (fst (extract s [])))
    /\ snd (extract s []) = [] /\ lin (fst (extract s [])) = None
    /\ final (fst (extract s [])) = false).
  { induction s as [e|v e|e|l IH|pre c lk t e IHp IHt IHe|i c b _ _]
      using stmt_ind2; intros args Hn Hb Hr.
    - cbn. auto.
    - destruct Hr.
    - discriminate Hn.
    - cbn [no_return branchy] in Hn, Hb.
      induction IH as [|x l Hx Hl IHl].
      + cbn. auto.
      + cbn [forallb] in Hn, Hb. apply andb_true_iff in Hn as [N1 N2].
        apply andb_true_iff in Hb as [B1 B2].
        apply reads_only_seq in Hr as [R1 R2].
        destruct (Hx args N1 B1 R1) as (M1 & S1 & L1 & F1).
        destruct (IHl N2 B2 R2) as (M2 & S2 & L2 & F2).
        destruct (extract_cons x l []) as [_ HB].
        destruct (HB F1) as (E1 & E2 & _ & E4).
        rewrite S1 in E1, E2, E4. rewrite E1, E2, E4, L1, L2.
        split; [apply Forall_app; auto|]. split; [assumption|].
        split; [reflexivity | apply final_seq].
    - cbn [no_return branchy reads_only] in *.
      apply andb_true_iff in Hn as [Hn N3]. apply andb_true_iff in Hn as [N1 N2].
      apply andb_true_iff in Hb as [Hb B3]. apply andb_true_iff in Hb as [B1 B2].
      destruct Hr as (R1 & R2 & R3 & R4).
      destruct (IHp args N1 (straight_branchy pre B1) R1) as (P1 & P2 & P3 & P4).
      cbn [extract]. destruct (extract pre []) as [pp lm1].
      cbn [fst snd] in *. subst lm1. rewrite P3.
      destruct (IHt args N2 B2 R3) as (T1 & T2 & T3 & T4).
      destruct lk as [[|]|].
      + destruct (extract t []) as [p lm2]. cbn [fst snd masks lin final] in *.
        split; [apply Forall_app; auto|auto].
      + destruct e as [f|]; [|discriminate].
        destruct (IHe args N3 B3 R4) as (U1 & U2 & U3 & U4).
        destruct (extract f []) as [p lm2]. cbn [fst snd masks lin final] in *.
        split; [apply Forall_app; split; [auto|]; repeat constructor; exact R2
               |auto].
      + destruct (extract t []) as [p lm2].
        cbn [fst snd masks lin final fallback_policy app] in *.
        split; [constructor; auto|auto].
    - cbn in Hb. discriminate Hb. }
  induction s as [e|v e|e|l IH|pre c lk t e IHp IHt IHe|i c b _ _]
    using stmt_ind2; intros args Ht Hb Hr; try discriminate Ht.
  - cbn. exists (copy [] e). rewrite copy_nil. auto.
  - induction IH as [|x l Hx Hl IHl]; [discriminate Ht|].
    apply reads_only_seq in Hr as [R1 R2].
    cbn [branchy forallb] in Hb. apply andb_true_iff in Hb as [B1 B2].
    destruct (extract_cons x l []) as [HA HB].
    destruct l as [|y l].
    + change (tail_return x = true) in Ht.
      destruct (Hx args Ht B1 R1) as (e & L1 & V1 & M1).
      destruct (final (fst (extract x []))) eqn:Ef.
      * destruct (HA eq_refl) as (E1 & E2 & _).
        exists e. rewrite E1, E2. auto.
      * destruct (HB eq_refl) as (E1 & E2 & _).
        exists e. rewrite E1, E2, L1. split; [reflexivity|]. split; [assumption|].
        cbn. rewrite app_nil_r. assumption.
    + change (no_return x && tail_return (SSeq (y :: l)) = true) in Ht.
      apply andb_true_iff in Ht as [T1 T2].
      destruct (N x args T1 B1 R1) as (M1 & S1 & L1 & F1).
      destruct (IHl T2 B2 R2) as (e & L2 & V2 & M2).
      destruct (HB F1) as (E1 & E2 & _).
      rewrite S1 in E1, E2. exists e. rewrite E1, E2, L1.
      split; [assumption|]. split; [assumption|]. apply Forall_app; auto.
  - cbn [tail_return branchy reads_only] in *.
    destruct e as [f|]; [|discriminate].
    apply andb_true_iff in Ht as [Ht T3]. apply andb_true_iff in Ht as [T1 T2].
    apply andb_true_iff in Hb as [Hb B3]. apply andb_true_iff in Hb as [B1 B2].
    destruct Hr as (R1 & R2 & R3 & R4).
    destruct (N pre args T1 (straight_branchy pre B1) R1) as (P1 & P2 & P3 & P4).
    cbn [extract]. destruct (extract pre []) as [pp lm1].
    cbn [fst snd] in *. subst lm1. rewrite P3.
    assert (B4 : branchy f = true) by (destruct lk as [[|]|]; exact B3).
    destruct (IHt args T2 B2 R3) as (et & L1 & V1 & M1).
    destruct (IHe args T3 B4 R4) as (ef & L2 & V2 & M2).
    destruct lk as [[|]|].
    + destruct (extract t []) as [p lm2]. cbn [fst snd masks lin final] in *.
      exists et. split; [assumption|]. split; [assumption|].
      apply Forall_app; auto.
    + destruct (extract f []) as [p lm2]. cbn [fst snd masks lin final] in *.
      exists ef. split; [assumption|]. split; [assumption|].
      apply Forall_app; split; [assumption|]. repeat constructor; exact R2.
    + destruct (extract t []) as [p lm2].
      cbn [fst snd masks lin final fallback_policy app] in *.
      exists et. split; [assumption|]. split; [assumption|]. constructor; auto.
Qed.

Lemma and_merge_some : forall fuel l, l <> [] -> (length l <= fuel)%nat ->
  exists e, and_merge fuel l = Some e.
Proof.
  intros fuel l Hn Hf.
  destruct (and_merge_spec (fun _ _ => None) fuel l (fun _ => None) Hn Hf)
    as (e & E & _). eauto.
Qed.

(** With operations defined on every value, the vector function returns for
    every vector of arguments. *)
Theorem vector_function_returns_partial :
  forall ops lang is_input s args n k venv f,
  branchy s = true -> flat_stmt s = true -> tail_return s = true ->
  reads_only args s ->
  (forall v, is_input v = true -> ~ In v (assigned s)) ->
  (forall o l, exists z, ops o l = Some z) ->
  well_sized args venv n -> (1 <= k)%nat -> Nat.divide k n ->
  exists out, vector_implementation ops lang is_input s args n k venv
                (fun j => Some (f j)) = Some out.
Proof.
  intros ops lang is_input s args n k venv f Hb Hfl Ht Hr Hi Hops Hw Hk Hd.
  destruct (extract_tail s args Ht Hb Hr) as (e & Le & Ve & Vm).
  assert (Hv : exists path mask,
            vectorize_scheme is_input s args n k = Some (path, mask)).
  { unfold vectorize_scheme. destruct (extract s []) as [p lm].
    cbn [fst] in *. rewrite Le. destruct (masks p) as [|c l] eqn:Em; [eauto|].
    destruct (and_merge_some (length (c :: l)) (c :: l)) as [x ->];
      [discriminate | lia | do 2 eexists; reflexivity]. }
  destruct Hv as (path & mask & Hv).
  assert (Hl : forall e, incl (vars e) args ->
            exists l, on_lanes ops args venv e 0 n = Some l).
  { intros a Ha. apply all_some_exists. intros j Hj. apply in_seq in Hj.
    apply eval_total; [assumption|]. intros v Hin.
    destruct (Hw v (Ha v Hin)) as (l & El & Ll).
    exists (nth j l 0). cbn [Nat.add].
    apply (lane_arg args venv n v l); auto; [|lia].
    apply memb_In. apply Ha. assumption. }
  unfold vector_implementation. rewrite Hv.
  unfold vectorize_scheme in Hv.
  destruct (extract_flat s [] Hfl) as (F1 & F2 & _); [intros v x; discriminate|].
  pose proof (instanciate_id is_input s []) as Hid.
  destruct (extract s []) as [p lm]. cbn [fst] in *. rewrite Le in Hv.
  rewrite (Hid e Hi) in Hv.
  destruct (match masks p with [] => Some (ECst 1) | _ => _ end) as [m|] eqn:Em;
    [|discriminate].
  injection Hv as <- <-.
  assert (Hn : (n / k * k = n)%nat).
  { destruct Hd as [q ->]. rewrite Nat.div_mul by lia. reflexivity. }
  assert (Hm : flat_calls m = true /\ incl (vars m) args).
  { destruct (masks p) as [|c l] eqn:Ec.
    - injection Em as <-. split; [reflexivity|]. intros v [].
    - split; [eapply and_merge_flat; eauto|]. clear - Em Vm.
      revert m Em. generalize (length (c :: l)). intros fuel.
      revert Vm. generalize (c :: l). clear c l.
      induction fuel as [|fuel IH]; intros l Vm m Em; [discriminate|].
      destruct l as [|a [|b l]]; [discriminate| |].
      + cbn in Em. injection Em as <-. inversion Vm; assumption.
      + set (L := a :: b :: l) in *.
        change (match and_merge fuel (firstn (Nat.div (length L) 2) L),
                      and_merge fuel (skipn (Nat.div (length L) 2) L) with
                | Some a, Some b => Some (EAnd a b)
                | _, _ => None
                end = Some m) in Em.
        destruct (and_merge fuel (firstn _ L)) as [x|] eqn:Ex; [|discriminate].
        destruct (and_merge fuel (skipn _ L)) as [y|] eqn:Ey; [|discriminate].
        injection Em as <-. cbn [vars].
        rewrite <- (firstn_skipn (Nat.div (length L) 2) L) in Vm.
        apply Forall_app in Vm as [H1 H2].
        apply incl_app; [exact (IH _ H1 x Ex) | exact (IH _ H2 y Ey)]. }
  destruct Hm as [Hm1 Hm2].
  rewrite !(chunks_lanes ops args venv n k) by (auto; lia). rewrite Hn.
  destruct (Hl e Ve) as [l El]. destruct (Hl m Hm2) as [w Ew].
  rewrite El, Ew.
  destruct (no_scalar_fallback _); [eauto|].
  destruct (wrapper_spec n l w (fun j => Some (f j))) as (out & Eo & _).
  - exact (on_lanes_len _ _ _ _ _ _ _ El).
  - exact (on_lanes_len _ _ _ _ _ _ _ Ew).
  - eauto.
  - exists out. destruct lang; [rewrite wrappers_agree|]; exact Eo.
Qed.

(** ** Where the vector function differs from the scalar one *)

Lemma constant_mask_free : forall n k args c,
  truth c = true ->
  no_scalar_fallback (assembling_vector
    (map (fun i => replicate n k i args (ECst c)) (seq 0 (n / k)))) = true.
Proof.
  intros n k args c Hc.
  assert (R : forallb (fun z => negb (z =? 0)) (repeat c k) = true).
  { apply forallb_forall. intros x Hx. apply repeat_spec in Hx. subst.
    exact Hc. }
  assert (A : forall l, no_scalar_fallback (VAsm
              (map (fun i => replicate n k i args (ECst c)) l)) = true).
  { induction l as [|i l IH]; [reflexivity|].
    cbn [map replicate no_scalar_fallback forallb] in *. rewrite R. exact IH. }
  destruct (seq 0 (n / k)) as [|i [|j l]].
  - reflexivity.
  - cbn. exact R.
  - exact (A (i :: j :: l)).
Qed.

(** vector function of a scheme whose path has no condition *)
Lemma unmasked : forall ops lang is_input s args n k venv cb e,
  lin (fst (extract s [])) = Some e -> masks (fst (extract s [])) = [] ->
  flat_calls (instanciate is_input (vmap (fst (extract s []))) e) = true ->
  well_sized args venv n -> (1 <= k)%nat -> Nat.divide k n ->
  vector_implementation ops lang is_input s args n k venv cb
  = on_lanes ops args venv
      (instanciate is_input (vmap (fst (extract s []))) e) 0 n.
Proof.
  intros ops lang is_input s args n k venv cb e Hl Hm Hf Hw Hk Hd.
  unfold vector_implementation, vectorize_scheme.
  destruct (extract s []) as [p lm]. cbn [fst] in *. rewrite Hl, Hm.
  rewrite constant_mask_free by reflexivity.
  rewrite (chunks_lanes ops args venv n k) by (auto; destruct Hd as [q ->]; rewrite Nat.div_mul; lia).
  f_equal. destruct Hd as [q ->]. rewrite Nat.div_mul by lia. reflexivity.
Qed.

Lemma on_lanes_all : forall ops args venv e n g,
  (forall j, (j < n)%nat -> eval ops (lane args venv j) e = Some (g j)) ->
  on_lanes ops args venv e 0 n = Some (map g (seq 0 n)).
Proof.
  intros ops args venv e n g H. apply all_some_intro.
  intros j Hj. apply in_seq in Hj. apply H. lia.
Qed.

Lemma nth_error_map_seq : forall (g : nat -> Z) n j, (j < n)%nat ->
  nth_error (map g (seq 0 n)) j = Some (g j).
Proof.
  intros g n j H. rewrite nth_error_map, nth_error_seq0 by assumption.
  reflexivity.
Qed.

(** A condition marked unlikely without else-branch is not in the mask:
    [if (unlikely(x)) return u; return w;] gives [w] in every lane. *)
Definition early_exit (u w : Z) : stmt :=
  SSeq [SIf (SSeq []) (EVar 0) (Some false) (SReturn (ECst u)) None;
        SReturn (ECst w)].

Theorem vector_unlikely_without_else_refuted :
  forall ops lang is_input u w n k venv cb xs j x,
  u <> w -> venv 0%nat = Some xs -> length xs = n ->
  (1 <= k)%nat -> Nat.divide k n ->
  nth_error xs j = Some x -> truth x = true ->
  computes ops (early_exit u w) (lane [0%nat] venv j) u
  /\ exists out,
       vector_implementation ops lang is_input (early_exit u w) [0%nat] n k
         venv cb = Some out
       /\ nth_error out j = Some w /\ nth_error out j <> Some u.
Proof.
  intros ops lang is_input u w n k venv cb xs j x Huw Hv Hl Hk Hd Hj Ht.
  assert (Hw : well_sized [0%nat] venv n).
  { intros v [<-|[]]. eauto. }
  assert (Hjn : (j < n)%nat).
  { rewrite <- Hl. apply nth_error_Some. congruence. }
  split.
  - apply run_cons_ret.
    apply (run_then ops _ _ _ _ _ _ _ x (Ret u) (run_nil ops _));
      [|exact Ht|constructor; reflexivity].
    cbn [eval]. unfold lane. cbn. rewrite Hv. exact Hj.
  - rewrite (unmasked ops lang is_input (early_exit u w) [0%nat] n k venv cb
               (ECst w)) by (try reflexivity; auto).
    rewrite (on_lanes_all ops _ _ _ n (fun _ => w)) by reflexivity.
    eexists. split; [reflexivity|].
    rewrite nth_error_map_seq by assumption.
    split; [reflexivity | congruence].
Qed.

(** A loop is not in the path: its assignments are lost. *)
Definition looping : stmt :=
  SSeq [SAssign 1 (ECst 0);
        SLoop (SSeq []) (ENot (EVar 1)) (SAssign 1 (ECst 1));
        SReturn (EVar 1)].

Theorem vector_loop_dropped_refuted :
  forall ops lang is_input n k venv cb j,
  is_input 1%nat = false -> well_sized [0%nat] venv n ->
  (1 <= k)%nat -> Nat.divide k n -> (j < n)%nat ->
  computes ops looping (lane [0%nat] venv j) 1
  /\ exists out,
       vector_implementation ops lang is_input looping [0%nat] n k venv cb
         = Some out
       /\ nth_error out j = Some 0.
Proof.
  intros ops lang is_input n k venv cb j Hi Hw Hk Hd Hj. split.
  - eapply run_cons; [constructor; reflexivity|].
    eapply run_cons.
    { eapply run_loop_next; [constructor | reflexivity | reflexivity
        | constructor; reflexivity|].
      eapply run_loop_end; [constructor | reflexivity | reflexivity]. }
    apply run_cons_ret. constructor. reflexivity.
  - rewrite (unmasked ops lang is_input looping [0%nat] n k venv cb
               (ECst 0)) by (try reflexivity; auto;
                             unfold instanciate; cbn; rewrite ?Hi; reflexivity).
    rewrite (on_lanes_all ops _ _ _ n (fun _ => 0)).
    + eexists. split; [reflexivity|]. apply nth_error_map_seq. assumption.
    + intros i Hij. unfold instanciate. cbn. rewrite ?Hi. reflexivity.
Qed.

(** A function input assigned after it has been read: the saved value is
    replaced by the new one. *)
Definition reassigned (c : Z) : stmt :=
  SSeq [SAssign 1 (EVar 0); SAssign 0 (ECst c); SReturn (EVar 1)].

Theorem vector_input_assigned_refuted :
  forall ops lang n k venv cb c xs j x,
  venv 0%nat = Some xs -> length xs = n -> (1 <= k)%nat -> Nat.divide k n ->
  nth_error xs j = Some x ->
  computes ops (reassigned c) (lane [0%nat] venv j) x
  /\ exists out,
       vector_implementation ops lang (fun v => Nat.eqb v 0) (reassigned c)
         [0%nat] n k venv cb = Some out
       /\ nth_error out j = Some c.
Proof.
  intros ops lang n k venv cb c xs j x Hv Hl Hk Hd Hj.
  assert (Hw : well_sized [0%nat] venv n).
  { intros v [<-|[]]. eauto. }
  assert (Hjn : (j < n)%nat).
  { rewrite <- Hl. apply nth_error_Some. congruence. }
  split.
  - eapply run_cons.
    { constructor. cbn. unfold lane. cbn. rewrite Hv. exact Hj. }
    eapply run_cons; [constructor; reflexivity|].
    apply run_cons_ret. constructor. reflexivity.
  - rewrite (unmasked ops lang _ (reassigned c) [0%nat] n k venv cb
               (EVar 0)) by (try reflexivity; auto).
    rewrite (on_lanes_all ops _ _ _ n (fun _ => c)) by reflexivity.
    eexists. split; [reflexivity|]. apply nth_error_map_seq. assumption.
Qed.

(** A condition which reads an assigned variable: the mask reads a variable
    without a value, although the scalar function is defined everywhere. *)
Definition local_condition (u w : Z) : stmt :=
  SSeq [SAssign 1 (EVar 0);
        SIf (SSeq []) (EVar 1) (Some true) (SReturn (ECst u))
            (Some (SReturn (ECst w)))].

Theorem vector_local_condition_refuted :
  forall ops lang is_input u w n k venv cb,
  well_sized [0%nat] venv n -> (1 <= k)%nat -> Nat.divide k n -> (1 <= n)%nat ->
  (forall j, (j < n)%nat ->
     exists z, computes ops (local_condition u w) (lane [0%nat] venv j) z)
  /\ vector_implementation ops lang is_input (local_condition u w) [0%nat] n k
       venv cb = None.
Proof.
  intros ops lang is_input u w n k venv cb Hw Hk Hd Hn. split.
  - intros j Hj. destruct (Hw 0%nat) as (l & Hv & Hl); [left; reflexivity|].
    assert (Ex : lane [0%nat] venv j 0%nat = Some (nth j l 0))
      by (apply (lane_arg _ _ n _ l); auto).
    destruct (truth (nth j l 0)) eqn:Et.
    + exists u. eapply run_cons; [constructor; exact Ex|].
      apply run_cons_ret.
      eapply run_then; [constructor | reflexivity | exact Et
                       | constructor; reflexivity].
    + exists w. eapply run_cons; [constructor; exact Ex|].
      apply run_cons_ret.
      eapply run_else; [constructor | reflexivity | exact Et
                       | constructor; reflexivity].
  - unfold vector_implementation, vectorize_scheme, local_condition.
    cbn [extract lin masks vmap final app length and_merge].
    assert (E : forall e, flat_calls e = true ->
      evalv ops venv (assembling_vector
        (map (fun i => replicate n k i [0%nat] e) (seq 0 (n / k))))
      = on_lanes ops [0%nat] venv e 0 n).
    { intros e He. rewrite (chunks_lanes ops _ _ n k) by
        (auto; destruct Hd as [q ->]; rewrite Nat.div_mul; lia).
      f_equal. destruct Hd as [q ->]. rewrite Nat.div_mul by lia. reflexivity. }
    assert (U : on_lanes ops [0%nat] venv (EVar 1) 0 n = None).
    { apply all_some_none. apply in_map_iff. exists 0%nat.
      split; [reflexivity | apply in_seq; lia]. }
    destruct (no_scalar_fallback _) eqn:En.
    { destruct (no_fallback_defined ops _ venv En) as [m Em].
      rewrite E in Em by reflexivity. congruence. }
    rewrite !E by reflexivity. rewrite U. clear U E En.
    unfold c_wrapper, ocl_wrapper.
    destruct lang; destruct (on_lanes ops [0%nat] venv _ 0 n); reflexivity.
Qed.

(** The whole path is executed for every lane, also for the lanes which the
    scalar function sends elsewhere: a table read guarded by a condition is
    made with the unguarded index. *)
Definition guarded_read (w : Z) : stmt :=
  SIf (SSeq []) (EOp 0 [EVar 0]) (Some true)
      (SReturn (EOp 1 [EVar 0])) (Some (SReturn (ECst w))).

(** operation 0: [0 <= x < size]; operation 1: read of a table *)
Definition table_ops (t : list Z) : nat -> list Z -> option Z :=
  fun o l =>
    match o, l with
    | 0%nat, [x] => Some (b2z ((0 <=? x) && (x <? Z.of_nat (length t))))
    | 1%nat, [x] => if (0 <=? x) && (x <? Z.of_nat (length t))
                    then nth_error t (Z.to_nat x) else None
    | _, _ => None
    end.

Theorem vector_prospective_read_refuted :
  forall t lang is_input w n k venv cb xs j x,
  venv 0%nat = Some xs -> length xs = n -> (1 <= k)%nat -> Nat.divide k n ->
  nth_error xs j = Some x -> ~ (0 <= x < Z.of_nat (length t)) ->
  computes (table_ops t) (guarded_read w) (lane [0%nat] venv j) w
  /\ vector_implementation (table_ops t) lang is_input (guarded_read w) [0%nat]
       n k venv cb = None.
Proof.
  intros t lang is_input w n k venv cb xs j x Hv Hl Hk Hd Hj Hx.
  assert (Hw : well_sized [0%nat] venv n).
  { intros v [<-|[]]. eauto. }
  assert (Hjn : (j < n)%nat).
  { rewrite <- Hl. apply nth_error_Some. congruence. }
  assert (Ex : lane [0%nat] venv j 0%nat = Some x)
    by (unfold lane; cbn; rewrite Hv; exact Hj).
  assert (Eb : (0 <=? x) && (x <? Z.of_nat (length t)) = false).
  { apply andb_false_iff. destruct (Z.leb_spec 0 x); [|auto].
    right. apply Z.ltb_ge. lia. }
  split.
  - eapply run_else with (z := 0);
      [apply run_nil| |reflexivity|apply run_return; reflexivity].
    cbn [eval map]. rewrite Ex. cbn [all_some table_ops]. rewrite Eb.
    reflexivity.
  - unfold vector_implementation, vectorize_scheme, guarded_read.
    cbn [extract lin masks vmap final app length and_merge].
    assert (E : forall e, flat_calls e = true ->
      evalv (table_ops t) venv (assembling_vector
        (map (fun i => replicate n k i [0%nat] e) (seq 0 (n / k))))
      = on_lanes (table_ops t) [0%nat] venv e 0 n).
    { intros e He. rewrite (chunks_lanes (table_ops t) _ _ n k) by
        (auto; destruct Hd as [q ->]; rewrite Nat.div_mul; lia).
      f_equal. destruct Hd as [q ->]. rewrite Nat.div_mul by lia. reflexivity. }
    rewrite !E by reflexivity.
    assert (U : on_lanes (table_ops t) [0%nat] venv
                  (instanciate is_input [] (copy [] (EOp 1 [EVar 0]))) 0 n = None).
    { apply all_some_none. apply in_map_iff. exists j.
      split; [|apply in_seq; lia]. cbn [Nat.add].
      unfold instanciate. cbn [copy filter lookup map eval]. rewrite Ex.
      cbn [all_some table_ops]. rewrite Eb. reflexivity. }
    rewrite U. destruct (no_scalar_fallback _); [reflexivity|].
    destruct lang; reflexivity.
Qed.

(** A call whose operand is a call: the inner call stays a scalar call on
    vectors. *)
Theorem vector_nested_call_refuted :
  forall ops lang is_input f g n k venv cb,
  well_sized [0%nat] venv n -> (2 <= k)%nat -> Nat.divide k n -> (1 <= n)%nat ->
  (forall o l, exists z, ops o l = Some z) ->
  let s := SReturn (ECall f [ECall g [EVar 0]]) in
  (forall j, (j < n)%nat ->
     exists z, computes ops s (lane [0%nat] venv j) z)
  /\ vector_implementation ops lang is_input s [0%nat] n k venv cb = None.
Proof.
  intros ops lang is_input f g n k venv cb Hw Hk Hd Hn Ht s. split.
  - intros j Hj. destruct (Hw 0%nat) as (l & Hv & Hl); [left; reflexivity|].
    destruct (eval_total ops (lane [0%nat] venv j)
                (ECall f [ECall g [EVar 0]]) Ht) as [z Hz].
    { cbn. intros v [<-|[]]. exists (nth j l 0).
      apply (lane_arg _ _ n _ l); auto. }
    exists z. constructor. exact Hz.
  - unfold vector_implementation, vectorize_scheme, s.
    cbn [extract lin masks vmap final].
    rewrite constant_mask_free by reflexivity.
    rewrite evalv_assembling. cbn [evalv].
    replace (all_some _) with (@None (list (list Z))); [reflexivity|].
    symmetry. apply all_some_none. rewrite map_map. apply in_map_iff.
    exists 0%nat. split.
    + unfold instanciate. cbn [copy map filter].
      change (if memb 0 [0%nat] then sub_arg n k 0 0 else VLoose 0)
        with (sub_arg n k 0 0).
      cbn [replicate]. destruct (Nat.ltb_spec 1 k); [|lia].
      cbn [evalv].
      replace (all_some _) with (@None (list (list Z))); [reflexivity|].
      symmetry. apply all_some_none. rewrite map_map. apply in_map_iff.
      exists 0%nat. split; [|apply in_seq; lia].
      cbn [map is_call evalv all_some copy lookup replicate memb existsb
           Nat.eqb orb].
      destruct Hd as [q Hq].
      assert (q <> 0)%nat by (intros ->; lia).
      rewrite (sub_arg_lanes ops [0%nat] venv n k 0 0)
        by (try reflexivity; auto; nia).
      destruct (on_lanes ops [0%nat] venv (EVar 0) (0 * k) k) as [v|] eqn:E;
        [|reflexivity].
      apply on_lanes_len in E. unfold sized. rewrite E.
      destruct (Nat.eqb_spec k 1); [lia | reflexivity].
    + apply in_seq. destruct Hd as [q Hq]. subst n.
      rewrite Nat.div_mul by lia.
      assert (q <> 0)%nat by (intros ->; cbn in Hn; lia). lia.
Qed.

(** A sub-vector size which does not divide the vector size: the result is
    short of the last lanes. *)
Theorem vector_uneven_split_refuted :
  forall ops lang is_input n k venv cb,
  well_sized [0%nat] venv n -> (1 <= k)%nat -> ~ Nat.divide k n ->
  exists out,
    vector_implementation ops lang is_input (SReturn (EVar 0)) [0%nat] n k
      venv cb = Some out
    /\ (length out < n)%nat.
Proof.
  intros ops lang is_input n k venv cb Hw Hk Hd.
  destruct (Hw 0%nat) as (l & Hv & Hl); [left; reflexivity|].
  unfold vector_implementation, vectorize_scheme.
  cbn [extract lin masks vmap final].
  rewrite constant_mask_free by reflexivity.
  unfold instanciate. cbn [copy filter lookup].
  assert (Hlt : (n / k * k < n)%nat).
  { pose proof (Nat.div_mod n k). pose proof (Nat.mod_upper_bound n k).
    assert (n mod k <> 0)%nat.
    { intros E. apply Hd. apply Nat.mod_divide; lia. }
    lia. }
  rewrite (chunks_lanes ops [0%nat] venv n k) by (try reflexivity; auto; lia).
  rewrite (on_lanes_all ops _ _ _ _ (fun j => nth j l 0)).
  - eexists. split; [reflexivity|]. rewrite map_length, seq_length. assumption.
  - intros j Hj. apply (lane_arg _ _ n _ l); auto. lia.
Qed.
