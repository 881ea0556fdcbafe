(* Machine-code linearization: theorems. *)
From Coq Require Import List Arith Bool Lia.
From Verif Require Import LinModel LinSpec LinProofs LinProofs2 LinCollapse.
Import ListNotations.

Section Props.
Context {V : Type}.
Variable truth : V -> bool.
Variable d0 : V.
Variable nodes : nat -> mnode V.
Variable rank : nat -> nat.
Notation eval := (eval d0 nodes rank).
Notation sexec := (sexec truth d0 nodes rank).
Notation mexec := (mexec truth).
Notation reaches := (reaches nodes).
Notation is_op := (is_op nodes).
Notation well_formed := (well_formed nodes).

(* every node of the program has a rank above those of its operands, and below the fuel *)
Definition acyclic_within (fuel : nat) (p : list (nat * list nat)) : Prop :=
  (forall n i, In i (operands nodes n) -> rank i < rank n) /\ (forall s, In s (concat (map snd p)) -> rank s < fuel).
(* the run of the register code does what the source run does; on a return with a value,
   the register of the returned node (vals) holds that value *)
Definition same_run (vals : nat -> option (opnd V)) (a b : @result V) : Prop :=
  match a, b with
  | RFuel, RFuel => True
  | REnd _, REnd _ => True
  | RStuck l _, RStuck l' _ => l = l'
  | RRet (Some n) env, RRet None regs => exists o, vals n = Some o /\ opval regs o = eval env n
  | RRet None _, RRet None _ => True
  | _, _ => False
  end.
Definition val_of (st : lst V) (n : nat) : option (opnd V) :=
  match assoc n (memo V st) with Some r => to_opnd V r | None => None end.
Definition instances {A} (q : list (nat * list A)) : list A := concat (map snd q).

Lemma in_concat_p : forall {A} (p : list (nat * list A)) l b s, In (l, b) p -> In s b -> In s (concat (map snd p)).
Proof. intros A p l b s H1 H2. apply in_concat. exists b. split; auto. apply in_map_iff. exists (l, b). auto. Qed.

Lemma agree_run_result : forall st p q, map fst q = map fst p ->
  (forall i l b, nth_error p i = Some (l, b) -> exists code, nth_error q i = Some (l, code) /\
     forall regs env, agree st regs env -> match_out d0 nodes rank st (sexec env b) (mexec regs code)) ->
  forall k i regs env, agree st regs env -> same_run (val_of st) (run sexec p k i env) (run mexec q k i regs).
Proof.
  intros st p q F S. induction k as [|k IH]; intros i regs env A; cbn [run]; [exact I|].
  destruct (nth_error p i) as [[l b]|] eqn:E.
  - destruct (S i l b E) as [code [-> H]]. specialize (H regs env A).
    assert (NR : forall n e, mexec regs code <> Ret (Some n) e).
    { clear. revert regs. induction code as [|j code IH]; intros regs n e; cbn [LinSpec.mexec]; [discriminate|].
      destruct j; try apply IH; try discriminate. destruct (truth (opval regs c)); [discriminate|apply IH]. }
    destruct (sexec env b) as [e|l' e|[n|] e], (mexec regs code) as [e'|l'' e'|[n'|] e'] eqn:Em; cbn [match_out] in H; try contradiction.
    + apply IH; auto.
    + destruct H as [<- H]. rewrite (find_label_fst q p l' F). destruct (find_label l' p); [apply IH; auto|reflexivity].
    + exfalso. eapply NR; eauto.
    + cbn. destruct H as [_ [r [o [H1 [H2 H3]]]]]. exists o. split; auto. unfold val_of. now rewrite H1.
    + exfalso. eapply NR; eauto.
    + exact I.
  - assert (E' : nth_error q i = None).
    { apply nth_error_None. apply nth_error_None in E. rewrite <- (map_length fst), F, map_length. auto. }
    rewrite E'. exact I.
Qed.

(* everything prog_ok gives for the initial state *)
Lemma lin0 : forall fuel p, acyclic_within fuel p -> well_formed p ->
  exists st q, lin_prog V nodes fuel p (ls0 V) = Some (st, q) /\ map fst q = map fst p /\ wfs nodes st /\
    grows nodes (ls0 V) st (concat (map snd q)) (reaches (concat (map snd p))) /\ tgt_ok nodes st (concat (map snd q)) /\
    forall k i regs env, agree st regs env -> same_run (val_of st) (run sexec p k i env) (run mexec q k i regs).
Proof.
  intros fuel p [Hr Hf] WF. destruct (prog_ok truth d0 nodes rank Hr fuel p (ls0 V) (wfs0 nodes)) as [st [q [L [G [T [F S]]]]]].
  - intros l b s H1 H2. split; [eapply wf_stmt; eauto|]. apply Hf. eapply in_concat_p; eauto.
  - apply (wf_once _ _ WF).
  - intros s _. reflexivity.
  - exists st, q. split; auto. split; auto. pose proof (G_wf _ _ _ _ _ G) as W. split; auto. split; auto. split; auto.
    apply agree_run_result; auto. intros i l b Hi. apply S; auto.
    + apply (wf_fresh _ _ WF).
    + apply (wf_local _ _ WF).
    + apply ext_refl.
Qed.

Lemma env_of : forall (st : lst V) regs, exists env, agree st regs env.
Proof.
  intros st regs. exists (fun x => match assoc x (vregs V st) with Some k => regs k | None => d0 end).
  intros x k H. now rewrite H.
Qed.
Lemma assoc_in : forall {A} n (l : list (nat * A)) a, assoc n l = Some a -> In (n, a) l.
Proof.
  induction l as [|[k b] l IH]; intros a H; [discriminate|]. cbn [assoc] in H. destruct (Nat.eqb_spec n k) as [->|].
  - injection H as ->. now left.
  - right. auto.
Qed.
Lemma regs_of : forall st (env : nat -> V), wfs nodes st -> exists regs, agree st regs env.
Proof.
  intros st env W. set (T := fun k (e : nat * nat) => match assoc (fst e) (vregs V st) with Some k' => k' =? k | None => false end).
  exists (fun k => match find (T k) (vregs V st) with Some (x, _) => env x | None => d0 end).
  intros x k H. destruct (find (T k) (vregs V st)) as [[y k']|] eqn:E.
  - apply find_some in E. destruct E as [_ E]. unfold T in E. cbn [fst] in E. destruct (assoc y (vregs V st)) as [k2|] eqn:Ey; [|discriminate].
    apply Nat.eqb_eq in E. subst k2. f_equal. eapply (W2 nodes); eauto.
  - exfalso. pose proof (find_none _ _ E (x, k) (assoc_in _ _ _ H)) as E2. unfold T in E2. cbn [fst] in E2. rewrite H, Nat.eqb_refl in E2. discriminate.
Qed.

(* ---- 1. linearization of the whole program is a simulation, from any block and for any number of steps *)
Theorem linearize_function_correct : forall fuel args p code ins outs, acyclic_within fuel p -> well_formed p ->
  (forall a, In a args -> nodes a = MVar) ->
  linearize_function V nodes fuel args p = Some (code, ins, outs) ->
  map fst code = map fst p /\
  exists vals, Forall2 (fun n r => vals n = Some (OReg r)) (return_values V nodes p) outs /\
  (forall regs, exists env, Forall2 (fun a r => regs r = env a) args ins /\
     forall k i, same_run vals (run sexec p k i env) (run mexec code k i regs)) /\
  (forall env, exists regs, Forall2 (fun a r => regs r = env a) args ins /\
     forall k i, same_run vals (run sexec p k i env) (run mexec code k i regs)).
Proof.
  intros fuel args p code ins outs Hac WF Ha H. destruct (lin0 fuel p Hac WF) as [st [q [L [F [W [_ [_ S]]]]]]].
  unfold linearize_function in H. rewrite L in H.
  destruct (all_regs V st args) as [is'|] eqn:Ei; [|discriminate].
  destruct (all_regs V st (return_values V nodes p)) as [os|] eqn:Eo; [|discriminate].
  injection H as <- <- <-. split; auto. exists (val_of st).
  apply all_regs_spec in Ei. apply all_regs_spec in Eo.
  assert (In2 : forall regs env, agree st regs env -> Forall2 (fun a r => regs r = env a) args is').
  { intros regs env A. clear - Ei Ha A W. induction Ei as [|a r l rs H1 H2 IH]; constructor.
    - pose proof (W3 _ _ W a _ H1) as H3. rewrite (Ha a (or_introl eq_refl)) in H3. destruct H3 as [k [Hk H3]]. injection Hk as <-. auto.
    - apply IH. intros b Hb. apply Ha. now right. }
  split; [|split].
  - clear - Eo. induction Eo as [|n r l rs H1 H2 IH]; constructor; auto. unfold val_of. now rewrite H1.
  - intros regs. destruct (env_of st regs) as [env A]. exists env. split; auto.
  - intros env. destruct (regs_of st env W) as [regs A]. exists regs. split; auto.
Qed.

(* ---- 2. acceptance: every argument is read, no constant is returned *)
Lemma returned_in : forall p n, In n (return_values V nodes p) <-> exists s, In s (concat (map snd p)) /\ nodes s = MRet (Some n).
Proof.
  intros p n. unfold return_values. rewrite nodup_In, in_flat_map. split.
  - intros [s [H1 H2]]. exists s. split; auto. destruct (nodes s) as [| | | | | | | |[m|]]; try contradiction. destruct H2 as [->|[]]; auto.
  - intros [s [H1 H2]]. exists s. split; auto. rewrite H2. now left.
Qed.
Theorem linearize_function_accepts : forall fuel args p, acyclic_within fuel p -> well_formed p ->
  (forall a, In a args -> nodes a = MVar) ->
  (linearize_function V nodes fuel args p <> None <->
   (forall a, In a args -> reaches (concat (map snd p)) a) /\
   (forall s n v, In s (concat (map snd p)) -> nodes s = MRet (Some n) -> nodes n <> MCst v)).
Proof.
  intros fuel args p Hac WF Ha. destruct (lin0 fuel p Hac WF) as [st [q [L [F [W [G [_ _]]]]]]].
  unfold linearize_function. rewrite L. split.
  - intros H. destruct (all_regs V st args) as [is'|] eqn:Ei; [|contradiction].
    destruct (all_regs V st (return_values V nodes p)) as [os|] eqn:Eo; [|contradiction]. split.
    + intros a Hin. destruct (all_regs_inv _ _ _ Ei a Hin) as [k [_ Hk]].
      destruct (G_new _ _ _ _ _ G a) as [H1|H1]; auto; [congruence|]. exfalso. apply H1. reflexivity.
    + intros s n v H1 H2 H3. assert (Hn : In n (return_values V nodes p)) by (apply returned_in; eauto).
      destruct (all_regs_inv _ _ _ Eo n Hn) as [k [_ Hk]]. pose proof (W3 _ _ W n _ Hk) as H4. rewrite H3 in H4. discriminate.
  - intros [H1 H2].
    destruct (all_regs_some st args) as [is' ->].
    { intros a Hin. pose proof (prog_reach nodes _ _ _ _ L a (H1 a Hin)) as Hm. unfold inmemo in Hm.
      destruct (assoc a (memo V st)) as [r|] eqn:E; [|contradiction]. pose proof (W3 _ _ W a _ E) as H4. rewrite (Ha a Hin) in H4.
      destruct H4 as [k [-> _]]. eauto. }
    destruct (all_regs_some st (return_values V nodes p)) as [os ->]; [|discriminate].
    intros n Hn. apply returned_in in Hn. destruct Hn as [s [Hs1 Hs2]].
    assert (Hr : reaches (concat (map snd p)) n).
    { exists s. split; auto. eapply reach_step; [apply reach_refl|]. unfold operands. rewrite Hs2. now left. }
    pose proof (prog_reach nodes _ _ _ _ L n Hr) as Hm. unfold inmemo in Hm.
    destruct (assoc n (memo V st)) as [r|] eqn:E; [|contradiction]. pose proof (W3 _ _ W n _ E) as H4.
    assert (Hx : is_expr_node nodes n).
    { apply in_concat in Hs1. destruct Hs1 as [b [Hb Hs]]. apply in_map_iff in Hb. destruct Hb as [[l b'] [<- Hb]].
      pose proof (wf_stmt _ _ WF l b' s Hb Hs) as Hok. unfold stmt_ok in Hok. rewrite Hs2 in Hok. apply expr_node. auto. }
    unfold is_expr_node in Hx. destruct (nodes n) eqn:En; try contradiction.
    + destruct H4 as [k [-> _]]. eauto.
    + exfalso. eapply H2; eauto.
    + destruct H4 as [k [-> _]]. eauto.
Qed.

(* ---- 3. one instruction, and one register, per operation *)
Theorem operations_computed_once : forall fuel p, acyclic_within fuel p -> well_formed p ->
  exists st q, lin_prog V nodes fuel p (ls0 V) = Some (st, q) /\
  (* a register written by an operation is written by no other instruction *)
  (forall a b c k f l, instances q = a ++ IOp k f l :: c -> In b (a ++ c) -> ~ writes b k) /\
  (* each operation reached has a register that one instruction computes; distinct operations, distinct registers *)
  exists reg, (forall m, is_op m -> reaches (concat (map snd p)) m -> exists f l, In (IOp (reg m) f l) (instances q)) /\
  (forall m m', is_op m -> is_op m' -> reaches (concat (map snd p)) m -> reaches (concat (map snd p)) m' -> reg m = reg m' -> m = m') /\
  (forall k f l, In (IOp k f l) (instances q) -> exists m, is_op m /\ reaches (concat (map snd p)) m /\ reg m = k).
Proof.
  intros fuel p Hac WF. destruct (lin0 fuel p Hac WF) as [st [q [L [F [W [G [T _]]]]]]]. exists st, q. split; auto. split.
  - intros a b c k f l E Hb Hw. unfold instances in E. rewrite E in *. clear E.
    pose proof (G_nodup _ _ _ _ _ G) as N. rewrite op_targets_app in N. unfold op_targets at 2 in N. cbn [flat_map op_target app] in N.
    apply NoDup_remove_2 in N.
    assert (Hin : In b (a ++ IOp k f l :: c)) by (apply in_app_iff; apply in_app_iff in Hb; destruct Hb; auto; right; now right).
    assert (Hk : In k (op_targets (a ++ IOp k f l :: c))).
    { rewrite op_targets_app, in_app_iff. right. now left. }
    destruct (G_tgt _ _ _ _ _ G k Hk) as [_ [Hnv _]].
    assert (Hop : forall f' l', b = IOp k f' l' -> False).
    { intros f' l' ->. apply N. apply in_app_iff. apply in_app_iff in Hb. destruct Hb as [Hb|Hb]; [left|right];
        (unfold op_targets; apply in_flat_map; exists (IOp k f' l'); split; auto; now left). }
    destruct b as [d g l'|d s|d v|o t|t|]; cbn in Hw; try contradiction; subst d.
    + eapply Hop; eauto.
    + destruct (T _ k Hin eq_refl) as [[f' [l' H]]|[x [_ H]]]; [discriminate|]. eapply Hnv; eauto.
    + destruct (T _ k Hin eq_refl) as [[f' [l' H]]|[x [_ H]]]; [discriminate|]. eapply Hnv; eauto.
  - exists (fun m => match assoc m (memo V st) with Some (RReg k) => k | _ => 0 end).
    assert (Hreg : forall m, is_op m -> reaches (concat (map snd p)) m -> exists k, assoc m (memo V st) = Some (RReg k)).
    { intros m Hm Hr. pose proof (prog_reach nodes _ _ _ _ L m Hr) as Hi. unfold inmemo in Hi.
      destruct (assoc m (memo V st)) as [r|] eqn:E; [|contradiction]. pose proof (W3 _ _ W m _ E) as H. unfold LinSpec.is_op in Hm.
      destruct (nodes m); try contradiction. destruct H as [k [-> _]]. eauto. }
    assert (Hin : forall k, In k (op_targets (concat (map snd q))) <-> exists f l, In (IOp k f l) (instances q)).
    { intros k. unfold op_targets, instances. rewrite in_flat_map. split.
      - intros [[d f l| | | | |] [H1 H2]]; cbn in H2; try contradiction. destruct H2 as [->|[]]. eauto.
      - intros [f [l H]]. exists (IOp k f l). split; auto. now left. }
    split; [|split].
    + intros m Hm Hr. destruct (Hreg m Hm Hr) as [k Hk]. rewrite Hk. apply Hin.
      destruct (G_all _ _ _ _ _ G m k Hm Hk) as [H|H]; auto. discriminate.
    + intros m m' Hm Hm' Hr Hr'. destruct (Hreg m Hm Hr) as [k Hk]. destruct (Hreg m' Hm' Hr') as [k' Hk']. rewrite Hk, Hk'. intros ->.
      eapply (W4 _ _ W); eauto.
    + intros k f l H. assert (Hk : In k (op_targets (concat (map snd q)))) by (apply Hin; eauto).
      destruct (G_tgt _ _ _ _ _ G k Hk) as [_ [_ [m [M1 [M2 M3]]]]]. exists m. split; auto. split; auto. now rewrite M3.
Qed.

(* ---- 4. removing a last branch to the next block changes no run *)
Theorem fallback_correct : forall q, NoDup (map fst q) -> forall k i regs,
  run mexec (fallback V q) k i regs = run mexec q k i regs.
Proof. apply fallback_run. Qed.

(* ---- 5. merging copies changes no run, the merged registers aside *)
Theorem collapse_correct : forall q, safe_copies q -> forall k i regs,
  same_result (merged q) (run mexec q k i regs) (run mexec (collapse V q) k i regs).
Proof. intros q S k i regs. apply collapse_sim; auto. intros r _. reflexivity. Qed.

(* ---- 6. what is not handled *)
Theorem leaf_endless_refuted : forall fuel n st, nodes n = MLeaf -> assoc n (memo V st) = None -> lin V nodes fuel n st = None.
Proof. induction fuel as [|f IH]; intros n st H M; auto. cbn [lin]. rewrite M, H. auto. Qed.
(* so no operation with such an operand (a load from or a store to a table) is handled *)
Theorem table_operand_refuted : forall fuel n st f l m, nodes n = MOp f l -> In m l -> nodes m = MLeaf ->
  assoc n (memo V st) = None -> (forall k, nodes k = MLeaf -> assoc k (memo V st) = None) -> lin V nodes fuel n st = None.
Proof.
  assert (Keep : forall fuel n st r st' c, lin V nodes fuel n st = Some (r, st', c) ->
     (forall k, nodes k = MLeaf -> assoc k (memo V st) = None) -> (forall k, nodes k = MLeaf -> assoc k (memo V st') = None)).
  { induction fuel as [|f IH]; intros n st r st' c H M; [discriminate|]. cbn [lin] in H.
    assert (Mm : forall r1 st1, nodes n <> MLeaf -> (forall k, nodes k = MLeaf -> assoc k (memo V st1) = None) ->
       forall k, nodes k = MLeaf -> assoc k (memo V (memoize V n r1 st1)) = None).
    { intros r1 st1 Hn M1 k Hk. unfold memoize. cbn [memo assoc]. destruct (Nat.eqb_spec k n) as [->|]; auto. contradiction. }
    destruct (assoc n (memo V st)); [injection H as <- <- <-; auto|].
    destruct (nodes n) as [|v|g l| | |x k|k t e|t|[k|]] eqn:Nn.
    - destruct (get_var V n st) as [q st1] eqn:Eg. injection H as <- <- <-. apply Mm; try discriminate.
      now rewrite (get_var_memo _ _ _ _ Eg).
    - injection H as <- <- <-. apply Mm; try discriminate. auto.
    - assert (Args : forall l' st0 os st1 c0, lin_args V (lin V nodes f) l' st0 = Some (os, st1, c0) ->
        (forall k, nodes k = MLeaf -> assoc k (memo V st0) = None) -> (forall k, nodes k = MLeaf -> assoc k (memo V st1) = None)).
      { induction l' as [|i l' IHl]; intros st0 os st1 c0 H0 M0; cbn [lin_args] in H0; [injection H0 as <- <- <-; auto|].
        destruct (lin V nodes f i st0) as [[[ri sti] ci]|] eqn:Ei; [|discriminate]. destruct (to_opnd V ri); [|discriminate].
        destruct (lin_args V (lin V nodes f) l' sti) as [[[os' st2] c2]|] eqn:Ea; [|discriminate]. injection H0 as <- <- <-. eauto. }
      destruct (lin_args V (lin V nodes f) l st) as [[[os st1] c1]|] eqn:Ea; [|discriminate]. injection H as <- <- <-.
      apply Mm; try discriminate. cbn [memo]. eauto.
    - eauto.
    - discriminate.
    - destruct (get_var V x st) as [vr st1] eqn:Eg. destruct (lin V nodes f k st1) as [[[rk st2] c2]|] eqn:Ek; [|discriminate].
      assert (M2 : forall k0, nodes k0 = MLeaf -> assoc k0 (memo V st2) = None).
      { apply (IH _ _ _ _ _ Ek). now rewrite (get_var_memo _ _ _ _ Eg). }
      destruct rk; try discriminate; injection H as <- <- <-; apply Mm; auto; discriminate.
    - destruct (lin V nodes f k st) as [[[rk st2] c2]|] eqn:Ek; [|discriminate]. destruct (to_opnd V rk); [|discriminate].
      injection H as <- <- <-. apply Mm; eauto. discriminate.
    - injection H as <- <- <-. apply Mm; auto. discriminate.
    - destruct (lin V nodes f k st) as [[[rk st2] c2]|] eqn:Ek; [|discriminate].
      injection H as <- <- <-. apply Mm; eauto. discriminate.
    - injection H as <- <- <-. apply Mm; auto. discriminate. }
  intros fuel n st f l m Hn Hm Hl M ML. destruct fuel as [|fu]; auto. cbn [lin]. rewrite M, Hn.
  assert (E : forall l0 st0, In m l0 -> (forall k, nodes k = MLeaf -> assoc k (memo V st0) = None) -> lin_args V (lin V nodes fu) l0 st0 = None).
  { induction l0 as [|j l0 IH]; intros st0 Hj ML0; [destruct Hj|]. cbn [lin_args]. destruct Hj as [->|Hj].
    - rewrite leaf_endless_refuted; auto.
    - destruct (lin V nodes fu j st0) as [[[rj stj] cj]|] eqn:Ej; auto. destruct (to_opnd V rj); auto.
      rewrite IH; eauto. }
  now rewrite E.
Qed.
Theorem phi_refuted : forall fuel n st, nodes n = MPhi -> assoc n (memo V st) = None -> lin V nodes fuel n st = None.
Proof. intros [|f] n st H M; auto. cbn [lin]. now rewrite M, H. Qed.
(* a statement object met a second time produces no code, whatever it is *)
Theorem statement_once_refuted : forall fuel s st r st1 c, assoc s (memo V st) = None ->
  (forall k i, assoc k (memo V st) <> None -> In i (operands nodes k) -> assoc i (memo V st) <> None) ->
  lin V nodes fuel s st = Some (r, st1, c) -> lin V nodes fuel s st1 = Some (r, st1, []).
Proof.
  intros fuel s st r st1 c M C H. pose proof (lin_good nodes _ _ _ _ _ _ C H) as [_ [_ I]].
  assert (E : assoc s (memo V st1) = Some r).
  { clear C I. revert s st r st1 c M H. induction fuel as [|f IH]; intros s st r st1 c M H; [discriminate|]. cbn [lin] in H. rewrite M in H.
    destruct (nodes s) as [|v|g l| | |x k|k t e|t|[k|]] eqn:Nn.
    - destruct (get_var V s st) as [q st2]. injection H as <- <- <-. cbn [memoize memo assoc]. now rewrite Nat.eqb_refl.
    - injection H as <- <- <-. cbn [memoize memo assoc]. now rewrite Nat.eqb_refl.
    - destruct (lin_args V (lin V nodes f) l st) as [[[os st2] c1]|]; [|discriminate]. injection H as <- <- <-.
      cbn [memoize memo assoc]. now rewrite Nat.eqb_refl.
    - eapply IH; eauto.
    - discriminate.
    - destruct (get_var V x st) as [vr st2]. destruct (lin V nodes f k st2) as [[[rk st3] c2]|]; [|discriminate].
      destruct rk; try discriminate; injection H as <- <- <-; cbn [memoize memo assoc]; now rewrite Nat.eqb_refl.
    - destruct (lin V nodes f k st) as [[[rk st2] c2]|]; [|discriminate]. destruct (to_opnd V rk); [|discriminate].
      injection H as <- <- <-. cbn [memoize memo assoc]. now rewrite Nat.eqb_refl.
    - injection H as <- <- <-. cbn [memoize memo assoc]. now rewrite Nat.eqb_refl.
    - destruct (lin V nodes f k st) as [[[rk st2] c2]|]; [|discriminate]. injection H as <- <- <-.
      cbn [memoize memo assoc]. now rewrite Nat.eqb_refl.
    - injection H as <- <- <-. cbn [memoize memo assoc]. now rewrite Nat.eqb_refl. }
  destruct fuel as [|f]; [discriminate|]. cbn [lin]. now rewrite E.
Qed.
End Props.

(* ---- examples and counterexamples over natural numbers *)
Definition tr (v : nat) : bool := negb (v =? 0).
Definition suc (l : list nat) : nat := match l with [v] => S v | _ => 0 end.
Definition add (l : list nat) : nat := match l with [a; b] => a + b | _ => 0 end.
Fixpoint reachl (nodes : nat -> mnode nat) (f n : nat) : list nat :=
  match f with O => [] | S f => n :: flat_map (reachl nodes f) (operands nodes n) end.
Lemma reach_reachl : forall nodes rank, (forall n i, In i (operands nodes n) -> rank i < rank n) ->
  forall f n m, rank n < f -> reach nodes n m -> In m (reachl nodes f n).
Proof.
  intros nodes rank H. induction f as [|f IH]; intros n m Hf R; [lia|]. cbn [reachl].
  destruct (reach_inv nodes n m R) as [->|[i [I1 I2]]]; [now left|]. right. apply in_flat_map. exists i. split; auto.
  apply IH; auto. pose proof (H n i I1). lia.
Qed.

(* x = 0, y = 1, z = 2 are variables; 3: x + y; 4: z + z; 5: y + 1;
   10: z := 3; 11: if 3 goto 1 else goto 2; 12: return 4; 13: z := y; 14: y := 5; 15: goto 1 ... *)
Definition ex_nodes (n : nat) : mnode nat :=
  match n with
  | 0 | 1 | 2 => MVar
  | 3 => MOp add [0; 1]
  | 4 => MOp add [2; 2]
  | 5 => MOp suc [1]
  | 10 => MAssign 2 3
  | 11 => MCBr 3 1 2
  | 12 => MRet (Some 4)
  | 13 => MAssign 2 1
  | 14 => MAssign 1 5
  | 15 => MBr 1
  | _ => MCst 7
  end.
Definition ex_prog : list (nat * list nat) := [(0, [10; 11]); (2, [13; 14; 15]); (1, [12])].
Definition ex_rank (n : nat) : nat := match n with 0 | 1 | 2 => 0 | 3 | 4 | 5 => 1 | 10 | 11 | 12 | 13 | 14 | 15 => 2 | _ => 0 end.
Ltac nat_cases n := do 16 (destruct n as [|n]; [cbn; try tauto|]); cbn; try tauto.
Lemma ex_acyclic : acyclic_within ex_nodes ex_rank 3 ex_prog.
Proof.
  split.
  - intros n i. do 16 (destruct n as [|n]; [cbn; intuition (subst; cbn; lia)|]). cbn. tauto.
  - intros s Hs. cbn in Hs. intuition (subst; cbn; lia).
Qed.
Lemma ex_reach : forall n m, reach ex_nodes n m -> In m (reachl ex_nodes 3 n).
Proof.
  intros n m. apply (reach_reachl ex_nodes ex_rank); [apply ex_acyclic|].
  do 16 (destruct n as [|n]; [cbn; lia|]). cbn. lia.
Qed.
Lemma ex_expr : forall n, Forall (fun m => match ex_nodes m with MVar | MCst _ | MOp _ _ => True | _ => False end) (reachl ex_nodes 3 n) -> expr ex_nodes n.
Proof. intros n H m R. apply ex_reach in R. rewrite Forall_forall in H. apply H. auto. Qed.
Example ex_well_formed : well_formed ex_nodes ex_prog.
Proof.
  constructor.
  - intros l b s Hl Hs. cbn in Hl.
    destruct Hl as [H|[H|[H|[]]]]; injection H as <- <-; cbn in Hs; repeat (destruct Hs as [<-|Hs]); try contradiction; cbn;
      try split; auto; try (apply ex_expr; cbn; repeat constructor).
  - cbn. repeat constructor; cbn; intuition lia.
  - intros i j l b l' b' m Hi Hj Hne Hm [s [Hs Rs]] [s' [Hs' Rs']].
    apply ex_reach in Rs. apply ex_reach in Rs'.
    destruct i as [|[|[|i]]]; cbn in Hi; try (destruct i; discriminate); injection Hi as <- <-;
    destruct j as [|[|[|j]]]; cbn in Hj; try (destruct j; discriminate); injection Hj as <- <-; try lia;
    cbn in Hs, Hs'; repeat (destruct Hs as [<-|Hs]); try contradiction; repeat (destruct Hs' as [<-|Hs']); try contradiction;
    cbn in Rs, Rs'; repeat (destruct Rs as [<-|Rs]); try contradiction; repeat (destruct Rs' as [Rs'|Rs']); try discriminate; try contradiction.
  - intros l b Hl. cbn in Hl. destruct Hl as [H|[H|[H|[]]]]; injection H as <- <-; cbn [fresh_use app].
    + split; [|split; [|exact I]].
      * intros x n H. cbn in H. injection H as <- <-. intros m Hm _ [s [[<-|[]] R]] Rx. apply ex_reach in R. apply ex_reach in Rx. cbn in R.
        repeat (destruct R as [<-|R]); cbn in Rx; try (now destruct Hm); try contradiction.
        -- cbn in Rx. intuition discriminate.
      * intros x n H. discriminate.
    + split; [|split; [|split; [|exact I]]].
      * intros x n H. cbn in H. injection H as <- <-. intros m Hm [s [[<-|[]] R1]] [s' [Hs R2]] Rx.
        apply ex_reach in R1. cbn in R1. repeat (destruct R1 as [<-|R1]); try (now destruct Hm); contradiction.
      * intros x n H. cbn in H. injection H as <- <-. intros m Hm _ [s [[<-|[]] R]] Rx.
        apply ex_reach in R. cbn in R. repeat (destruct R as [<-|R]); try (now destruct Hm); contradiction.
      * intros x n H. discriminate.
    + split; [intros x n H; discriminate|exact I].
Qed.
(* code of the example: registers 0 z, 1 x, 2 y, 3: x + y ... *)
Example ex_code : linearize_function nat ex_nodes 3 [0; 1] ex_prog =
  Some ([(0, [IOp 3 add [OReg 1; OReg 2]; ICopy 0 3; ICBr (OReg 3) 1; IBr 2]);
         (2, [ICopy 0 2; IOp 4 suc [OReg 2]; ICopy 2 4; IBr 1]);
         (1, [IOp 5 add [OReg 0; OReg 0]; IRet])], [1; 2], [5]).
Proof. reflexivity. Qed.
Example ex_runs : let q := match linearize_function nat ex_nodes 3 [0; 1] ex_prog with Some (q, _, _) => q | None => [] end in
  (match run (mexec tr) q 9 0 (fun r => if r =? 1 then 5 else if r =? 2 then 6 else 0) with RRet None e => e 5 | _ => 0 end,
   match run (mexec tr) q 9 0 (fun _ => 0) with RRet None e => e 5 | _ => 99 end,
   match run (sexec tr 0 ex_nodes ex_rank) ex_prog 9 0 (fun x => if x =? 0 then 5 else 6) with RRet (Some n) e => eval 0 ex_nodes ex_rank e n | _ => 0 end)
  = (22, 0, 22).
Proof. reflexivity. Qed.
(* the last branch of block 2 goes to the next block and is dropped; the copy of block 2 merges *)
Example ex_passes : match linearize_function nat ex_nodes 3 [0; 1] ex_prog with
  Some (q, _, _) => (map (fun b => length (snd b)) (fallback nat q), collapse nat q) | None => ([], []) end =
  ([3; 3; 2], [(0, [IOp 3 add [OReg 1; OReg 2]; ICopy 0 3; ICBr (OReg 3) 1; IBr 2]);
               (2, [ICopy 0 2; IOp 2 suc [OReg 2]; IBr 1]); (1, [IOp 5 add [OReg 0; OReg 0]; IRet])]).
Proof. reflexivity. Qed.
Example ex_safe : forall c, c = [(0, [IOp 1 suc [OReg 0]; IConst 3 9; ICopy 2 1; IRet])] -> safe_copies (V := nat) c /\ merged c 1 /\
  collapse nat c = [(0, [IOp 2 suc [OReg 0]; IConst 3 9; IRet])].
Proof.
  intros c ->.
  assert (At : forall b k i, insn_at (V := nat) [(0, [IOp 1 suc [OReg 0]; IConst 3 9; ICopy 2 1; IRet])] b k = Some i ->
     b = 0 /\ (k = 0 /\ i = IOp 1 suc [OReg 0] \/ k = 1 /\ i = IConst 3 9 \/ k = 2 /\ i = ICopy 2 1 \/ k = 3 /\ i = IRet)).
  { intros b k i H. destruct b as [|b]; [|unfold insn_at in H; destruct b; discriminate]. split; auto.
    destruct k as [|[|[|[|k]]]]; unfold insn_at in H; cbn in H; try (injection H as <-); auto 6. destruct k; discriminate. }
  split; [|split].
  - intros b k' k d s [M1 [M2 [M3 [M4 M5]]]]. destruct (At _ _ _ M1) as [-> [[-> H]|[[-> H]|[[-> H]|[-> H]]]]]; try discriminate.
    injection H as -> ->. destruct M3 as [i [H1 H2]]. destruct (At _ _ _ H1) as [_ [[-> ->]|[[-> ->]|[[-> ->]|[-> ->]]]]]; cbn in H2; try lia.
    split.
    + intros x H. discriminate.
    + intros j i Hj Hi. destruct (At _ _ _ Hi) as [_ [[-> ->]|[[-> ->]|[[-> ->]|[-> ->]]]]]; try lia. cbn. intuition lia.
  - exists 0, 0, 2, 2. split; [reflexivity|]. split; [lia|]. split; [exists (IOp 1 suc [OReg 0]); split; reflexivity|]. split.
    + intros b2 j i H Hw. destruct (At _ _ _ H) as [-> [[-> ->]|[[-> ->]|[[-> ->]|[-> ->]]]]]; cbn in Hw; try discriminate; try contradiction; auto.
    + intros b2 j i H Hw. destruct (At _ _ _ H) as [-> [[-> ->]|[[-> ->]|[[-> ->]|[-> ->]]]]]; cbn in Hw; try discriminate; try contradiction; auto.
      destruct Hw as [Hw|[]]. discriminate.
  - reflexivity.
Qed.

(* an operation met in two blocks is computed in the first one only: if 0 goto 1 else goto 2;
   1: return x + 1; 2: return x + 1 (the same node) *)
Definition sh_nodes (n : nat) : mnode nat :=
  match n with 0 => MVar | 1 => MOp suc [0] | 2 => MCBr 0 1 2 | 3 => MRet (Some 1) | 4 => MRet (Some 1) | _ => MCst 0 end.
Definition sh_prog : list (nat * list nat) := [(0, [2]); (1, [3]); (2, [4])].
Theorem shared_operation_refuted :
  linearize_function nat sh_nodes 3 [0] sh_prog = Some ([(0, [ICBr (OReg 0) 1; IBr 2]); (1, [IOp 1 suc [OReg 0]; IRet]); (2, [IRet])], [0], [1]) /\
  forall env regs, regs 0 = env 0 -> env 0 = 0 ->
   run (sexec tr 0 sh_nodes (fun n => n)) sh_prog 2 0 env = RRet (Some 1) env /\ eval 0 sh_nodes (fun n => n) env 1 = 1 /\
   exists regs', run (mexec tr) [(0, [ICBr (OReg 0) 1; IBr 2]); (1, [IOp 1 suc [OReg 0]; IRet]); (2, [IRet])] 2 0 regs = RRet None regs' /\ regs' 1 = regs 1.
Proof.
  split; [reflexivity|]. intros env regs H E. split; [|split].
  - cbn. rewrite E. reflexivity.
  - cbn. rewrite E. reflexivity.
  - exists regs. cbn. rewrite H, E. cbn. auto.
Qed.
(* an operation met again after its operand was assigned keeps the old value: y := x + 1; x := 5; z := x + 1; return z *)
Definition st_nodes (n : nat) : mnode nat :=
  match n with 0 | 1 | 2 => MVar | 3 => MOp suc [0] | 4 => MAssign 1 3 | 5 => MAssign 0 6 | 6 => MCst 5 | 7 => MAssign 2 3 | 8 => MRet (Some 2) | _ => MCst 0 end.
Definition st_rank (n : nat) : nat := match n with 0 | 1 | 2 | 6 => 0 | 3 => 1 | _ => 9 end.
Theorem stale_operation_refuted : exists code, linearize_function nat st_nodes 11 [0] [(0, [4; 5; 7; 8])] = Some (code, [1], [3]) /\
  forall env regs, regs 1 = env 0 ->
   (exists e, run (sexec tr 0 st_nodes st_rank) [(0, [4; 5; 7; 8])] 1 0 env = RRet (Some 2) e /\ eval 0 st_nodes st_rank e 2 = 6) /\
   (exists e, run (mexec tr) code 1 0 regs = RRet None e /\ e 3 = S (env 0)).
Proof.
  exists [(0, [IOp 2 suc [OReg 1]; ICopy 0 2; IConst 1 5; ICopy 3 2; IRet])]. split; [reflexivity|].
  intros env regs H. split.
  - eexists. split; reflexivity.
  - eexists. split; [reflexivity|]. cbn. now rewrite H.
Qed.
(* an argument that is not read, or a constant that is returned: the function is rejected *)
Theorem rejected_functions_refuted :
  linearize_function nat sh_nodes 9 [0; 9] [(0, [3])] = None /\
  linearize_function nat (fun n => match n with 0 | 1 => MVar | 2 => MOp suc [0] | 3 => MRet (Some 2) | _ => MCst 0 end) 9 [0; 1] [(0, [3])] = None /\
  linearize_function nat (fun n => match n with 0 => MRet (Some 1) | _ => MCst 3 end) 9 [] [(0, [0])] = None.
Proof. split; [|split]; reflexivity. Qed.
(* y := n; return n: the merge renames the register of n, an output, which nothing writes any more *)
Theorem collapse_output_refuted :
  let nodes := fun n => match n with 0 | 1 => MVar | 2 => MOp suc [0] | 3 => MAssign 1 2 | 4 => MRet (Some 2) | _ => MCst 0 end in
  exists code, linearize_function nat nodes 6 [0] [(0, [3; 4])] = Some (code, [1], [2]) /\
  safe_copies code /\
  forall b k i, insn_at (collapse nat code) b k = Some i -> ~ writes i 2.
Proof.
  cbn [LinModel.linearize_function]. exists [(0, [IOp 2 suc [OReg 1]; ICopy 0 2; IRet])]. split; [reflexivity|]. split.
  - assert (At : forall b k i, insn_at (V := nat) [(0, [IOp 2 suc [OReg 1]; ICopy 0 2; IRet])] b k = Some i ->
     b = 0 /\ (k = 0 /\ i = IOp 2 suc [OReg 1] \/ k = 1 /\ i = ICopy 0 2 \/ k = 2 /\ i = IRet)).
    { intros b k i H. destruct b as [|b]; [|unfold insn_at in H; destruct b; discriminate]. split; auto.
      destruct k as [|[|[|k]]]; unfold insn_at in H; cbn in H; try (injection H as <-); auto 6. destruct k; discriminate. }
    intros b k' k d s [M1 [M2 [M3 [M4 M5]]]]. destruct (At _ _ _ M1) as [-> [[-> H]|[[-> H]|[-> H]]]]; try discriminate.
    injection H as -> ->. split; [|intros; lia]. intros x H. destruct (At _ _ _ H) as [_ [[_ H']|[[-> _]|[_ H']]]]; [discriminate|lia|discriminate].
  - intros b k i H. destruct b as [|b]; [|unfold insn_at in H; destruct b; discriminate].
    destruct k as [|[|k]]; unfold insn_at in H; cbn in H; try (injection H as <-; cbn; lia). destruct k; discriminate.
Qed.
(* y := x + 1; z := y; return z: both copies are deleted, the second with the renaming of the first *)
Theorem collapse_chain_refuted :
  let nodes := fun n => match n with 0 | 1 | 2 => MVar | 3 => MOp suc [0] | 4 => MAssign 1 3 | 5 => MAssign 2 1 | 6 => MRet (Some 2) | _ => MCst 0 end in
  exists code, linearize_function nat nodes 8 [0] [(0, [4; 5; 6])] = Some (code, [1], [3]) /\
  collapse nat code = [(0, [IOp 0 suc [OReg 1]; IRet])] /\
  ~ merged code 3 /\ forall b k i, insn_at (collapse nat code) b k = Some i -> ~ writes i 3.
Proof.
  exists [(0, [IOp 2 suc [OReg 1]; ICopy 0 2; ICopy 3 0; IRet])]. split; [reflexivity|]. split; [reflexivity|]. split.
  - intros [b [k' [k [d [M1 _]]]]]. destruct b as [|b]; [|unfold insn_at in M1; destruct b; discriminate].
    destruct k as [|[|[|[|k]]]]; unfold insn_at in M1; cbn in M1; try discriminate. destruct k; discriminate.
  - intros b k i H. destruct b as [|b]; [|unfold insn_at in H; destruct b; discriminate].
    destruct k as [|[|k]]; unfold insn_at in H; cbn in H; try (injection H as <-; cbn; lia). destruct k; discriminate.
Qed.

Print Assumptions linearize_function_correct.
Print Assumptions linearize_function_accepts.
Print Assumptions operations_computed_once.
Print Assumptions fallback_correct.
Print Assumptions collapse_correct.
Print Assumptions leaf_endless_refuted.
Print Assumptions table_operand_refuted.
Print Assumptions phi_refuted.
Print Assumptions statement_once_refuted.
Print Assumptions shared_operation_refuted.
Print Assumptions stale_operation_refuted.
Print Assumptions rejected_functions_refuted.
Print Assumptions collapse_output_refuted.
Print Assumptions collapse_chain_refuted.
