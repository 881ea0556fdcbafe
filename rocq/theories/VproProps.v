(* Vector promotion: what the pass produces, values, operations used, sharing, and what is wrong. *)
From Coq Require Import ZArith List Bool String Arith Lia.
From Verif Require Import VproModel VproSpec VproProofs VproIds.
Import ListNotations.
Open Scope string_scope.
Open Scope list_scope.

(* ---- 1. the pass never fails and produces the promoted program, whatever the sharing ---- *)
Theorem promotion_refines : forall table supported p, coherent (stmt_nodes p) ->
  exists p', run_pass table supported p = Some p' /\ erase_stmt p' = promoted_stmt table supported (erase_stmt p).
Proof.
  intros table supported p COH.
  destruct (promote_stmt_ok table supported (stmt_nodes p) COH p init_st (incl_refl _) (init_inv _ _ _)) as (p' & s' & E & R & _).
  exists p'. unfold run_pass. rewrite E. auto.
Qed.
Definition sup_all : string -> fmt -> list fmt -> bool := fun _ _ _ => true.
Definition F4 := FNamed "v4float32".
Definition un (n : string) := mkop n false.
Definition lf (i : nat) (x : string) := NLeaf (Id i) F4 x.
(* x*x + c shared by a call and by the result *)
Definition ex_mul := NOp (Id 10) (un "Multiplication") F4 [lf 1 "x"; lf 1 "x"].
Definition ex_prog := SSeq (SAssign (lf 2 "r") (NOp (Id 11) (mkop "FunctionCall" true) F4 [ex_mul])) (SReturn (NOp (Id 12) (un "Addition") F4 [ex_mul; lf 2 "r"])).
Example promotion_ex : exists p', run_pass m128_table sup_all ex_prog = Some p' /\
  erase_stmt p' = (let G := FNamed "ML_SSE_m128_v4float32" in let cx := TOp "Conversion" false G [TLeaf F4 "x"] in
    let mm := TOp "Multiplication" false G [cx; cx] in
    XSeq (XAssign (TLeaf F4 "r") (TOp "FunctionCall" true F4 [TOp "Conversion" false F4 [mm]]))
         (XReturn (TOp "Conversion" false F4 [TOp "Addition" false G [mm; TOp "Conversion" false G [TLeaf F4 "r"]]]))) .
Proof. eexists. split; reflexivity. Qed.
Example promotion_ex_coherent : coherent (stmt_nodes ex_prog).
Proof.
  intros a b Ha Hb. cbn in Ha, Hb. repeat destruct Ha as [<-|Ha]; try destruct Ha; repeat destruct Hb as [<-|Hb]; try destruct Hb; cbn [nid lf ex_mul]; intro E; try discriminate E; reflexivity.
Qed.

(* ---- 2. values ---- *)
Fixpoint stmt_tables_ok (p : tstmt) : Prop :=
  match p with
  | XSkip => True
  | XSeq a b => stmt_tables_ok a /\ stmt_tables_ok b
  | XAssign x e => tables_ok x /\ tables_ok e
  | XIf c a b => tables_ok c /\ stmt_tables_ok a /\ stmt_tables_ok b
  | XLoop i c b => stmt_tables_ok i /\ tables_ok c /\ stmt_tables_ok b
  | XReturn e => tables_ok e
  end.
Lemma promoted_target : forall table supported x, (forall f q, x <> TLeaf f q) -> forall f q, promoted table supported x (tfmt x) <> TLeaf f q.
Proof.
  intros table supported x H f q. destruct x as [g y|g y|g v|o b g args]; [exfalso; eapply H; reflexivity| | |]; cbn [promoted tfmt]; try discriminate.
  - unfold conv_to. destruct (moves table supported (TCst g v)); destruct (fmt_eqb _ _); discriminate.
  - unfold conv_to. destruct (moves table supported (TOp o b g args)); destruct (fmt_eqb _ _); discriminate.
Qed.
Section Val.
Context {V S : Type}.
Variable shape : fmt -> S.
Variable opsem : string -> S -> list S -> list V -> V.
Variable cst : S -> Z -> V.
Variable tab : string -> V.
Variable truth : V -> bool.
Variable table : fmt -> option fmt.
Variable supported : string -> fmt -> list fmt -> bool.
Hypothesis CN : conversions_neutral opsem.
Hypothesis SH : forall f f', table f = Some f' -> shape f' = shape f.
Lemma exec_promoted : forall fuel p env, stmt_tables_ok p ->
  exec shape opsem cst tab truth fuel (promoted_stmt table supported p) env = exec shape opsem cst tab truth fuel p env.
Proof.
  assert (forall env t, tables_ok t -> value shape opsem cst tab env (promoted table supported t (tfmt t)) = value shape opsem cst tab env t) as PV.
  { intros env t H. apply (promoted_value table supported shape opsem cst tab CN SH); auto. }
  induction fuel as [|k IH]; intros p env H; [reflexivity|].
  destruct p as [|a b|x e|c a b|i c b|e]; cbn [promoted_stmt exec stmt_tables_ok] in *.
  - reflexivity.
  - destruct H as [H1 H2]. rewrite (IH a env H1). destruct (exec shape opsem cst tab truth k a env) as [[env'|v]|]; auto.
  - destruct H as [H1 H2]. destruct x as [f q|f q|f v|o y f args].
    + cbn [promoted tfmt]. unfold conv_to. cbn [tfmt]. rewrite (proj2 (fmt_eqb_eq f f) eq_refl). rewrite PV by exact H2. reflexivity.
    + reflexivity.
    + pose proof (promoted_target table supported (TCst f v) ltac:(discriminate)) as N. destruct (promoted table supported (TCst f v) _); auto. exfalso. eapply N. reflexivity.
    + pose proof (promoted_target table supported (TOp o y f args) ltac:(discriminate)) as N. destruct (promoted table supported (TOp o y f args) _); auto. exfalso. eapply N. reflexivity.
  - destruct H as (H1 & H2 & H3). rewrite PV by exact H1. destruct (truth _); apply IH; assumption.
  - destruct H as (H1 & H2 & H3). rewrite (IH i env H1). destruct (exec shape opsem cst tab truth k i env) as [[env'|v]|]; auto.
    rewrite PV by exact H2. destruct (truth _); auto. rewrite (IH b env' H3). destruct (exec shape opsem cst tab truth k b env') as [[env''|v]|]; auto.
    change (XLoop XSkip (promoted table supported c (tfmt c)) (promoted_stmt table supported b)) with (promoted_stmt table supported (XLoop XSkip c b)).
    apply IH. cbn [stmt_tables_ok]. auto.
  - rewrite PV by exact H. reflexivity.
Qed.
Theorem promotion_value : forall p, coherent (stmt_nodes p) -> stmt_tables_ok (erase_stmt p) ->
  exists p', run_pass table supported p = Some p' /\
    forall fuel env, exec shape opsem cst tab truth fuel (erase_stmt p') env = exec shape opsem cst tab truth fuel (erase_stmt p) env.
Proof.
  intros p COH HT. destruct (promotion_refines table supported p COH) as (p' & E & R). exists p'. split; [exact E|].
  intros fuel env. rewrite R. apply exec_promoted. exact HT.
Qed.
End Val.
(* the tables of the Intel targets keep the element and the number of lanes, give different
   formats different registers, and never lead back to a format they translate *)
Lemma list_table : forall l, forallb (fun p => match shape_of (FNamed (fst p)), shape_of (FNamed (snd p)) with
     | Some (a, x), Some (b, y) => Nat.eqb x y && match a, b with EF32, EF32 | EF64, EF64 | EI32, EI32 | EI64, EI64 | EU32, EU32 | EU64, EU64 | EB, EB | EL, EL => true | _, _ => false end
     | _, _ => false end && match table_of l (FNamed (snd p)) with None => true | _ => false end) l = true ->
  forall f g, table_of l f = Some g -> shape_of g = shape_of f /\ has_up (table_of l) g = false.
Proof.
  intros l H f g E. destruct f as [s|s]; [discriminate|]. cbn [table_of] in E. destruct (find _ l) as [p|] eqn:EF; [|discriminate].
  injection E as <-. apply find_some in EF. destruct EF as [HI HE]. apply String.eqb_eq in HE. subst s.
  rewrite forallb_forall in H. specialize (H p HI). apply andb_true_iff in H. destruct H as [H1 H2]. split.
  - destruct (shape_of (FNamed (fst p))) as [[a x]|]; [|discriminate]. destruct (shape_of (FNamed (snd p))) as [[b y]|]; [|discriminate].
    apply andb_true_iff in H1. destruct H1 as [H1 H3]. apply Nat.eqb_eq in H1. subst y. destruct a, b; try discriminate H3; reflexivity.
  - unfold has_up. destruct (table_of l (FNamed (snd p))); [discriminate|reflexivity].
Qed.
Theorem intel_tables : (forall f g, m128_table f = Some g -> shape_of g = shape_of f /\ has_up m128_table g = false) /\
  (forall f g, m256_table f = Some g -> shape_of g = shape_of f /\ has_up m256_table g = false) /\
  NoDup (map snd m128_list) /\ NoDup (map snd m256_list) /\
  (forall f, m128_table f = None \/ m256_table f = None).
Proof.
  split; [apply list_table; vm_compute; reflexivity|]. split; [apply list_table; vm_compute; reflexivity|].
  assert (forall l, (if list_eq_dec string_dec (nodup string_dec l) l then true else false) = true -> NoDup l) as ND.
  { intros l H. destruct (list_eq_dec _ _ _) as [<-|]; [apply NoDup_nodup|discriminate]. }
  split; [apply ND; vm_compute; reflexivity|]. split; [apply ND; vm_compute; reflexivity|].
  intros [s|s]; [left; reflexivity|]. destruct (m128_table (FNamed s)) as [g|] eqn:E; [right|left; reflexivity].
  unfold m128_table, table_of in E. destruct (find _ m128_list) as [p|] eqn:EF; [|discriminate]. apply find_some in EF. destruct EF as [HI HE].
  apply String.eqb_eq in HE. subst s. clear E g. repeat (destruct HI as [<-|HI]; [reflexivity|]). destruct HI.
Qed.
Example intel_tables_ex : m128_table F4 = Some (FNamed "ML_SSE_m128_v4float32") /\ m256_table (FNamed "v8int32") = Some (FNamed "ML_AVX_m256_v8int32").
Proof. split; reflexivity. Qed.

(* ---- 3. the operations of the result ---- *)
Section Ops.
Variable table : fmt -> option fmt.
Variable supported : string -> fmt -> list fmt -> bool.
Let up := up table.
Definition op_ok (src : list (string * bool * fmt * list fmt)) (q : string * bool * fmt * list fmt) : Prop :=
  In q src \/
  (exists o f l, In (o, false, f, l) src /\ q = (o, false, up f, map up l) /\ supported o (up f) (map up l) = true /\
     has_up table f = true /\ forallb (has_up table) l = true) \/
  (exists f g, q = ("Conversion", false, f, [g]) /\ f <> g /\ (f = up g \/ g = up f)).
Lemma op_ok_mono : forall a b q, incl a b -> op_ok a q -> op_ok b q.
Proof.
  intros a b q H [K|[(o & f & l & K & K2)|K]]; [left; auto|right; left; exists o, f, l; auto|right; right; exact K].
Qed.
Lemma conv_ops : forall e t src, (e = tfmt t \/ e = up (tfmt t) \/ tfmt t = up e) -> Forall (op_ok src) (ops t) -> Forall (op_ok src) (ops (conv_to e t)).
Proof.
  intros e t src HE H. unfold conv_to. destruct (fmt_eqb (tfmt t) e) eqn:E; [exact H|].
  assert (tfmt t <> e) as N by (intro K; rewrite K, (proj2 (fmt_eqb_eq e e) eq_refl) in E; discriminate).
  cbn [ops map flat_map]. rewrite app_nil_r. constructor; [|exact H]. right. right. exists e, (tfmt t). split; [reflexivity|]. split; [congruence|].
  destruct HE as [HE|[HE|HE]]; [congruence|left; exact HE|right; exact HE].
Qed.
Lemma promoted_ops : forall t e, tables_ok t -> (e = tfmt t \/ e = up (tfmt t)) -> Forall (op_ok (ops t)) (ops (promoted table supported t e)).
Proof.
  induction t as [f x|f q|f v|o x f args IH] using tree_ind'; intros e HT HE; cbn [tfmt] in HE.
  - apply conv_ops; [cbn [tfmt]; tauto|constructor].
  - constructor.
  - cbn [promoted]. destruct (moves table supported (TCst f v)) eqn:EM.
    + apply conv_ops; [cbn [tfmt]; fold up; destruct HE; subst e; auto|]. constructor; [|constructor]. cbn [moves] in EM. apply andb_true_iff in EM. destruct EM as [E1 E2].
      right. left. exists "Constant", f, []. cbn [ops map forallb]. fold up in E2. split; [left; reflexivity|]. auto.
    + apply conv_ops; [cbn [tfmt]; tauto|]. constructor; [left; left; reflexivity|constructor].
  - pose proof (tables_args _ _ _ _ HT) as HA. cbn [promoted].
    assert (forall ff, (forall g, ff g = g \/ ff g = up g) ->
      Forall (op_ok (ops (TOp o x f args))) (flat_map ops (map (fun a => promoted table supported a (ff (tfmt a))) args))) as HK.
    { intros ff Hff. apply Forall_forall. intros q Hq. apply in_flat_map in Hq. destruct Hq as (b & Hb & Hq). apply in_map_iff in Hb. destruct Hb as (a & <- & Ha).
      rewrite Forall_forall in IH, HA. specialize (IH a Ha (ff (tfmt a)) (HA a Ha) (Hff (tfmt a))). rewrite Forall_forall in IH.
      apply (op_ok_mono (ops a)); [|exact (IH q Hq)]. intros z Hz. cbn [ops]. right. apply in_flat_map. exists a. auto. }
    destruct (moves table supported (TOp o x f args)) eqn:EM.
    + apply conv_ops; [cbn [tfmt]; fold up; destruct HE; subst e; auto|]. cbn [ops]. constructor; [|apply (HK up); auto].
      cbn [moves] in EM. rewrite !andb_true_iff in EM. destruct EM as [[[E1 E2] E3] E4]. destruct x; [discriminate|].
      right. left. exists o, f, (map tfmt args). split; [left; reflexivity|]. split; [|split; [rewrite map_map; exact E4|split; [exact E1|]]].
      * f_equal. rewrite !map_map. apply map_ext_in. intros a Ha. rewrite Forall_forall in HA. apply up_fmt. apply HA. exact Ha.
      * rewrite <- E3. clear. induction args as [|a l IH]; [reflexivity|]. cbn [map forallb]. rewrite IH. reflexivity.
    + apply conv_ops; [cbn [tfmt]; tauto|]. cbn [ops]. constructor; [|apply (HK (fun g => g)); auto].
      left. left. f_equal. rewrite map_map. apply map_ext. intro a. symmetry. apply same_fmt.
Qed.
(* run on an expression: each operation is an unchanged one, a promoted one the target has, or
   a conversion between a format and its promoted format; the format of the result is kept *)
Theorem promotion_operations : forall n, coherent (nodes n) -> tables_ok (erase n) ->
  exists r, run_expr table supported n = Some r /\ nfmt r = nfmt n /\ Forall (op_ok (ops (erase n))) (ops (erase r)).
Proof.
  intros n COH HT. destruct (promote_ok table supported (nodes n) COH n init_st (nfmt n) (incl_refl _) (init_inv _ _ _) (or_introl eq_refl)) as (r & s' & E & R & _).
  exists r. unfold run_expr. rewrite E. split; [reflexivity|]. split.
  - rewrite <- erase_fmt, R, <- erase_fmt. apply same_fmt.
  - rewrite R. apply promoted_ops; [exact HT|]. left. symmetry. apply erase_fmt.
Qed.

(* promoting the result again changes nothing *)
Hypothesis DISJ : forall f g, table f = Some g -> has_up table g = false.
Lemma has_up_up : forall f, has_up table (up f) = true -> up f = f.
Proof.
  intros [s|s] H; [reflexivity|]. unfold up, VproSpec.up in *. destruct (table (FNamed s)) as [g|] eqn:E; [|reflexivity].
  rewrite (DISJ _ _ E) in H. discriminate.
Qed.
Lemma up_up : forall f, up (up f) = up f.
Proof.
  intro f. destruct (has_up table (up f)) eqn:E; [rewrite !(has_up_up f E); reflexivity|]. apply (no_up table). exact E.
Qed.
Lemma stable_conv : forall e t f, (e = f \/ e = up f) -> (tfmt t = f \/ tfmt t = up f) ->
  promoted table supported t (tfmt t) = t -> promoted table supported (conv_to e t) e = conv_to e t.
Proof.
  intros e t f HE HF HS. unfold conv_to. destruct (fmt_eqb (tfmt t) e) eqn:E.
  - apply fmt_eqb_eq in E. rewrite <- E. exact HS.
  - assert (tfmt t <> e) as N by (intro K; rewrite K, (proj2 (fmt_eqb_eq e e) eq_refl) in E; discriminate).
    cbn [promoted map tfmt]. rewrite HS.
    assert (moves table supported (TOp "Conversion" false e [t]) = false) as ->.
    { cbn [moves negb forallb andb]. destruct (has_up table e) eqn:E1; cbn [andb]; auto. destruct (has_up table (tfmt t)) eqn:E2; cbn [andb]; auto.
      exfalso. apply N. destruct HE as [->| ->], HF as [HF|HF]; rewrite HF in *; auto.
      - apply has_up_up. exact E2.
      - symmetry. apply has_up_up. exact E1. }
    unfold conv_to. cbn [tfmt]. rewrite (proj2 (fmt_eqb_eq e e) eq_refl). reflexivity.
Qed.
Theorem promotion_twice : forall t e, tables_ok t -> (e = tfmt t \/ e = up (tfmt t)) ->
  promoted table supported (promoted table supported t e) e = promoted table supported t e.
Proof.
  assert (forall g t, conv_to g t = t -> conv_to g t = t) as _ by auto.
  assert (forall t, conv_to (tfmt t) t = t) as CS by (intro t; unfold conv_to; rewrite (proj2 (fmt_eqb_eq _ _) eq_refl); reflexivity).
  induction t as [f x|f q|f v|o x f args IH] using tree_ind'; intros e HT HE; cbn [tfmt] in HE.
  - cbn [promoted]. apply (stable_conv e (TLeaf f x) f); auto. apply CS.
  - reflexivity.
  - cbn [promoted]. destruct (moves table supported (TCst f v)) eqn:EM.
    + apply (stable_conv e (TCst (up f) v) f); auto. cbn [promoted tfmt].
      destruct (moves table supported (TCst (up f) v)); [fold up; rewrite up_up|]; apply (CS (TCst (up f) v)).
    + apply (stable_conv e (TCst f v) f); auto. cbn [promoted tfmt]. rewrite EM. apply (CS (TCst f v)).
  - pose proof (tables_args _ _ _ _ HT) as HA. cbn [promoted]. rewrite Forall_forall in IH, HA.
    destruct (moves table supported (TOp o x f args)) eqn:EM.
    + fold up. set (args' := map (fun a => promoted table supported a (up (tfmt a))) args).
      assert (forall a', In a' args' -> up (tfmt a') = tfmt a' /\ promoted table supported a' (tfmt a') = a') as K.
      { intros a' Ha'. apply in_map_iff in Ha'. destruct Ha' as (a & <- & Ha). unfold up. rewrite (up_fmt table supported a (HA a Ha)).
        split; [apply up_up|]. apply IH; auto. }
      apply (stable_conv e (TOp o x (up f) args') f); auto. cbn [promoted tfmt]. fold up.
      assert (map (fun a => promoted table supported a (up (tfmt a))) args' = args') as E1.
      { rewrite <- (map_id args') at 2. apply map_ext_in. intros a Ha. destruct (K a Ha) as [K1 K2]. rewrite K1. exact K2. }
      assert (map (fun a => promoted table supported a (tfmt a)) args' = args') as E2.
      { rewrite <- (map_id args') at 2. apply map_ext_in. intros a Ha. exact (proj2 (K a Ha)). }
      destruct (moves table supported (TOp o x (up f) args')); [rewrite E1, up_up|rewrite E2]; apply (CS (TOp o x (up f) args')).
    + set (args' := map (fun a => promoted table supported a (tfmt a)) args).
      apply (stable_conv e (TOp o x f args') f); auto. cbn [promoted tfmt].
      assert (map tfmt args' = map tfmt args) as EF.
      { unfold args'. rewrite map_map. apply map_ext. intro a. apply same_fmt. }
      assert (moves table supported (TOp o x f args') = false) as ->.
      { rewrite <- EM. cbn [moves]. rewrite <- (map_map tfmt (VproSpec.up table) args'), <- (map_map tfmt (VproSpec.up table) args), EF.
        f_equal. f_equal. clearbody args'. clear -EF. revert args EF. induction args' as [|b l IH]; intros [|a m] EF; try discriminate EF; [reflexivity|].
        cbn [map forallb] in *. injection EF as E1 E2. rewrite E1, (IH m E2). reflexivity. }
      assert (map (fun a => promoted table supported a (tfmt a)) args' = args') as ->; [|apply (CS (TOp o x f args'))].
      rewrite <- (map_id args') at 2. apply map_ext_in. intros a' Ha'. apply in_map_iff in Ha'. destruct Ha' as (a & <- & Ha).
      rewrite same_fmt. apply IH; auto.
Qed.
End Ops.
Example promotion_operations_ex : exists r, run_expr m128_table sup_all (NOp (Id 12) (un "Addition") F4 [ex_mul; lf 2 "r"]) = Some r /\
  In ("Multiplication", false, FNamed "ML_SSE_m128_v4float32", [FNamed "ML_SSE_m128_v4float32"; FNamed "ML_SSE_m128_v4float32"]) (ops (erase r)).
Proof. eexists. split; [reflexivity|]. cbn. auto 10. Qed.
Example promotion_twice_ex : let t := erase (NOp (Id 12) (un "Addition") F4 [ex_mul; lf 2 "r"]) in
  promoted m128_table sup_all t F4 <> t /\ promoted m128_table sup_all (promoted m128_table sup_all t F4) F4 = promoted m128_table sup_all t F4.
Proof. split; [discriminate|reflexivity]. Qed.

(* ---- 4. sharing ---- *)
Section Share.
Variable table : fmt -> option fmt.
Variable supported : string -> fmt -> list fmt -> bool.
Definition keeps (s s' : st) : Prop := tl (memo s') = tl (memo s) /\ (memo s <> [] -> memo s' <> []).
Lemma keeps_refl : forall s, keeps s s. Proof. split; auto. Qed.
Lemma keeps_trans : forall a b c, keeps a b -> keeps b c -> keeps a c.
Proof. intros a b c [H1 H2] [H3 H4]. split; [congruence|auto]. Qed.
Lemma memo_keeps : forall e i s n x, keeps s (snd (memoize e i (insert_conversion s n x))).
Proof.
  intros e i s n x. destruct (insert_erase s n x) as [_ E]. split; cbn [memoize snd memo].
  - rewrite mset_tl, E. reflexivity.
  - intro H. rewrite mset_nil, E. exact H.
Qed.
Lemma list_keeps : forall ef args, Forall (fun n => forall s e r s', promote table supported s n e = Some (r, s') -> keeps s s') args ->
  forall s l' s', prom_list (promote table supported) ef s args = Some (l', s') -> keeps s s'.
Proof.
  intros ef args HF. induction HF as [|a t Ha Ht IH]; intros s l' s' H.
  - injection H as _ <-. apply keeps_refl.
  - rewrite prom_list_cons in H. destruct (ef a) as [g|]; [|discriminate]. destruct (promote table supported s a g) as [[a' s1]|] eqn:Ea; [|discriminate].
    destruct (prom_list (promote table supported) ef s1 t) as [[t' s2]|] eqn:Et; [|discriminate]. injection H as _ <-.
    eapply keeps_trans; [exact (Ha _ _ _ _ Ea)|exact (IH _ _ _ Et)].
Qed.
Lemma promote_keeps : forall n s e r s', promote table supported s n e = Some (r, s') -> keeps s s'.
Proof.
  induction n as [i f x|i f t|i f v|i o f args IH] using node_ind'; intros s e r s' H; cbn [promote nid] in H;
  (destruct (mget (e, i) (memo s)) as [r0|]; [injection H as _ <-; apply keeps_refl|]); destruct (promotable table supported _); try discriminate H.
  - destruct (fmt_eqb e f); [injection H as _ <-; apply keeps_refl|]. destruct (table f); [|discriminate]. injection H as _ <-. apply memo_keeps.
  - injection H as _ <-. split; cbn [memoize snd memo]; [apply mset_tl|intro K; rewrite mset_nil; exact K].
  - destruct (conv_format table f); [|discriminate]. injection H as _ <-. apply memo_keeps.
  - injection H as _ <-. apply memo_keeps.
  - destruct (prom_list _ _ s args) as [[l' s1]|] eqn:E; [|discriminate]. destruct (conv_format table f); [|discriminate]. injection H as _ <-.
    eapply keeps_trans; [exact (list_keeps _ _ IH _ _ _ E)|apply memo_keeps].
  - destruct (prom_list _ _ s args) as [[l' s1]|] eqn:E; [|discriminate]. injection H as _ <-.
    eapply keeps_trans; [exact (list_keeps _ _ IH _ _ _ E)|apply memo_keeps].
Qed.
(* a node that is asked for again in the same format is the same object *)
Theorem promotion_shared : forall n s e r s', memo s <> [] -> promote table supported s n e = Some (r, s') -> promote table supported s' n e = Some (r, s').
Proof.
  intros n s e r s' HN H.
  assert (forall s1 m, keeps s s1 -> mget (e, nid n) (memo s) = None ->
    mget (e, nid n) (memo (snd (memoize e (nid n) (insert_conversion s1 m e)))) = Some (fst (insert_conversion s1 m e))) as K.
  { intros s1 m [K1 K2] E. cbn [memoize snd memo]. destruct (insert_erase s1 m e) as [_ ->]. destruct (memo s1) as [|l t] eqn:E1; [exfalso; apply (K2 HN); reflexivity|].
    apply mget_set_new. cbn [tl] in K1. rewrite K1. destruct (memo s) as [|l0 t0]; [reflexivity|]. cbn [tl]. cbn [mget] in E. destruct (mget (e, nid n) t0); [discriminate|reflexivity]. }
  assert (mget (e, nid n) (memo s') = Some r \/ (s' = s /\ mget (e, nid n) (memo s) = None)) as [D|[-> _]].
  - destruct n as [i f x|i f t|i f v|i o f args]; cbn [promote nid] in *;
    (destruct (mget (e, i) (memo s)) as [r0|] eqn:E; [injection H as <- <-; left; exact E|]); destruct (promotable table supported _); try discriminate H.
    + destruct (fmt_eqb e f); [injection H as _ <-; right; auto|]. destruct (table f); [|discriminate]. injection H as <- <-. left. apply K; [apply keeps_refl|reflexivity].
    + injection H as <- <-. left. cbn [memoize snd memo fst]. destruct (memo s) as [|l t0] eqn:E1; [congruence|]. apply mget_set_new.
      cbn [mget] in E. destruct (mget (e, i) t0); [discriminate|reflexivity].
    + destruct (conv_format table f); [|discriminate]. injection H as <- <-. left. apply K; [apply keeps_refl|reflexivity].
    + injection H as <- <-. left. apply K; [apply keeps_refl|reflexivity].
    + destruct (prom_list _ _ s args) as [[l' s1]|] eqn:El; [|discriminate]. destruct (conv_format table f); [|discriminate]. injection H as <- <-. left.
      apply K; [|reflexivity]. refine (list_keeps _ _ _ _ _ _ El). apply Forall_forall. intros a _. apply promote_keeps.
    + destruct (prom_list _ _ s args) as [[l' s1]|] eqn:El; [|discriminate]. injection H as <- <-. left.
      apply K; [|reflexivity]. refine (list_keeps _ _ _ _ _ _ El). apply Forall_forall. intros a _. apply promote_keeps.
  - destruct n; cbn [promote nid] in *; rewrite D; reflexivity.
  - exact H.
Qed.
(* what a branch or a loop body defines is forgotten after it *)
Lemma stmt_keeps : forall p s p' s', promote_stmt table supported s p = Some (p', s') -> keeps s s'.
Proof.
  assert (forall s s1, keeps (open_level s) s1 -> memo (close_level s1) = memo s) as CL by (intros s s1 [H _]; apply close_memo; exact H).
  induction p as [|a IHa b IHb|x e|c a IHa b IHb|i IHi c b IHb|e]; intros s p' s' H; cbn [promote_stmt] in H.
  - injection H as _ <-. apply keeps_refl.
  - destruct (promote_stmt table supported s a) as [[a' s1]|] eqn:E1; [|discriminate]. destruct (promote_stmt table supported s1 b) as [[b' s2]|] eqn:E2; [|discriminate].
    injection H as _ <-. eapply keeps_trans; eauto.
  - destruct (promote table supported s x _) as [[a' s1]|] eqn:E1; [|discriminate]. destruct (promote table supported s1 e _) as [[b' s2]|] eqn:E2; [|discriminate].
    injection H as _ <-. eapply keeps_trans; eapply promote_keeps; eauto.
  - destruct (promote table supported s c _) as [[c' s1]|] eqn:E1; [|discriminate]. destruct (promote_stmt table supported (open_level s1) a) as [[a' s2]|] eqn:E2; [|discriminate].
    destruct (promote_stmt table supported (open_level (close_level s2)) b) as [[b' s3]|] eqn:E3; [|discriminate]. injection H as _ <-.
    pose proof (CL _ _ (IHa _ _ _ E2)) as K2. pose proof (CL _ _ (IHb _ _ _ E3)) as K3.
    apply promote_keeps in E1. destruct E1 as [T1 T2]. split; [rewrite K3, K2; exact T1|rewrite K3, K2; exact T2].
  - destruct (promote_stmt table supported s i) as [[i' s1]|] eqn:E1; [|discriminate]. destruct (promote table supported s1 c _) as [[c' s2]|] eqn:E2; [|discriminate].
    destruct (promote_stmt table supported (open_level s2) b) as [[b' s3]|] eqn:E3; [|discriminate]. injection H as _ <-.
    pose proof (CL _ _ (IHb _ _ _ E3)) as K3. pose proof (keeps_trans _ _ _ (IHi _ _ _ E1) (promote_keeps _ _ _ _ _ E2)) as [T1 T2].
    split; rewrite K3; assumption.
  - destruct (promote table supported s e _) as [[e' s1]|] eqn:E1; [|discriminate]. injection H as _ <-. eapply promote_keeps; eauto.
Qed.
Theorem promotion_levels :
  (forall c a b s p' s', promote_stmt table supported s (SIf c a b) = Some (p', s') ->
     exists c' s1, promote table supported s c (nfmt c) = Some (c', s1) /\ memo s' = memo s1) /\
  (forall i c b s p' s', promote_stmt table supported s (SLoop i c b) = Some (p', s') ->
     exists i' s1 c' s2, promote_stmt table supported s i = Some (i', s1) /\ promote table supported s1 c (nfmt c) = Some (c', s2) /\ memo s' = memo s2).
Proof.
  assert (forall s s1, keeps (open_level s) s1 -> memo (close_level s1) = memo s) as CL by (intros s s1 [H _]; apply close_memo; exact H).
  split.
  - intros c a b s p' s' H. cbn [promote_stmt] in H. destruct (promote table supported s c _) as [[c' s1]|] eqn:E1; [|discriminate]. exists c', s1. split; [reflexivity|].
    destruct (promote_stmt table supported (open_level s1) a) as [[a' s2]|] eqn:E2; [|discriminate].
    destruct (promote_stmt table supported (open_level (close_level s2)) b) as [[b' s3]|] eqn:E3; [|discriminate]. injection H as _ <-.
    rewrite (CL _ _ (stmt_keeps _ _ _ _ E3)). apply (CL _ _ (stmt_keeps _ _ _ _ E2)).
  - intros i c b s p' s' H. cbn [promote_stmt] in H. destruct (promote_stmt table supported s i) as [[i' s1]|] eqn:E1; [|discriminate].
    destruct (promote table supported s1 c _) as [[c' s2]|] eqn:E2; [|discriminate].
    destruct (promote_stmt table supported (open_level s2) b) as [[b' s3]|] eqn:E3; [|discriminate]. injection H as _ <-.
    exists i', s1, c', s2. split; [reflexivity|]. split; [exact E2|]. apply (CL _ _ (stmt_keeps _ _ _ _ E3)).
Qed.
End Share.
Example promotion_shared_ex : exists r s', promote m128_table sup_all init_st ex_mul F4 = Some (r, s') /\ nid r = Cv 1 /\
  promote m128_table sup_all s' ex_mul F4 = Some (r, s').
Proof. eexists _, _. split; [reflexivity|]. split; reflexivity. Qed.

(* ---- 5. execution with every object computed once ---- *)
Lemma conv_leaves : forall e t, leaves (conv_to e t) = leaves t.
Proof. intros e t. unfold conv_to. destruct (fmt_eqb (tfmt t) e); [reflexivity|]. cbn [leaves flat_map]. apply app_nil_r. Qed.
Lemma promoted_leaves : forall table supported t e, leaves (promoted table supported t e) = leaves t.
Proof.
  intros table supported. induction t as [f x|f q|f v|o x f args IH] using tree_ind'; intro e; cbn [promoted].
  - apply conv_leaves.
  - reflexivity.
  - rewrite conv_leaves. destruct (moves _ _ _); reflexivity.
  - rewrite conv_leaves. destruct (moves _ _ _); cbn [leaves]; (induction IH as [|a l Ha Hl IHl]; [reflexivity|]; cbn [map flat_map]; rewrite Ha, IHl; reflexivity).
Qed.
Section Run.
Context {V S : Type}.
Variable shape : fmt -> S.
Variable opsem : string -> S -> list S -> list V -> V.
Variable cst : S -> Z -> V.
Variable tab : string -> V.
Variable table : fmt -> option fmt.
Variable supported : string -> fmt -> list fmt -> bool.
Hypothesis CN : conversions_neutral opsem.
Hypothesis SH : forall f f', table f = Some f' -> shape f' = shape f.
(* straight-line programs that assign no variable after reading it *)
Theorem promotion_run_partial : forall l, coherent (stmt_nodes (block l)) -> (forall n, In n (stmt_nodes (block l)) -> exists k, nid n = Id k) ->
  Forall (fun a => tables_ok (erase (line_expr a))) l -> assigned_first [] (plain l) ->
  exists l', run_pass table supported (block l) = Some (block l') /\
    forall env x, crun shape opsem cst tab (named l') env [] x = crun shape opsem cst tab (named l) env [] x.
Proof.
  intros l COH IDS HT HA. set (L := stmt_nodes (block l)) in *.
  destruct (block_ids table supported L COH IDS l init_st []) as (l' & s' & D & E & R & HN).
  { apply incl_refl. } { apply init_inv. } { split; [reflexivity|]. intros k r H. discriminate H. }
  exists l'. unfold run_pass. rewrite E. split; [reflexivity|]. intros env x.
  assert (forall env t, tables_ok t -> value shape opsem cst tab env (promoted table supported t (tfmt t)) = value shape opsem cst tab env t) as PV.
  { intros env0 t H. apply (promoted_value table supported shape opsem cst tab CN SH); auto. }
  rewrite (crun_ok shape opsem cst tab (flat_map (fun a => nodes (line_expr a)) l')) with (read := []).
  - rewrite (crun_ok shape opsem cst tab L) with (read := []).
    + rewrite R. clear -HT PV. revert env. induction HT as [|a t Ha Ht IH]; intro env; [reflexivity|]. cbn [plain map srun fst snd]. rewrite PV by exact Ha. apply IH.
    + intros a b Ha Hb Eab. rewrite (COH a b Ha Hb Eab). reflexivity.
    + clear. subst L. induction l as [|[[[i f] y] e] t IH]; intros a Ha; [destruct Ha|destruct Ha as [<-|Ha]]; cbn [block stmt_nodes line_expr snd].
      * intros z Hz. apply in_or_app. left. apply in_or_app. right. exact Hz.
      * intros z Hz. apply in_or_app. right. exact (IH a Ha z Hz).
    + intros i v H. discriminate H.
    + exact HA.
  - apply (idok_consistent table supported L ([] ++ D)); [exact COH|]. clear -HN. induction HN as [|a t Ha Ht IH]; [constructor|]. cbn [flat_map]. apply Forall_app. split; assumption.
  - intros a Ha z Hz. apply in_flat_map. exists a. auto.
  - intros i v H. discriminate H.
  - rewrite R. revert HA. generalize (@nil string). generalize (plain l). clear. induction l as [|[x e] t IH]; intros rd H; [exact I|].
    cbn [map fst snd assigned_first] in *. rewrite promoted_leaves. destruct H as [H1 H2]. split; [exact H1|]. apply IH. exact H2.
Qed.
End Run.
(* a variable that is assigned again after its promotion: the conversion of the first value is
   kept *)
Definition stale_prog : list line :=
  [(Id 0, F4, "u", lf 3 "a"); (Id 1, F4, "v", NOp (Id 5) (un "Negation") F4 [lf 0 "u"]);
   (Id 0, F4, "u", lf 4 "b"); (Id 2, F4, "w", NOp (Id 6) (un "Abs") F4 [lf 0 "u"])].
Theorem promotion_stale_refuted : forall (V S : Type) (shape : fmt -> S) (opsem : string -> S -> list S -> list V -> V) cst tab env,
  conversions_neutral opsem -> (forall f f', m128_table f = Some f' -> shape f' = shape f) ->
  exists l', run_pass m128_table sup_all (block stale_prog) = Some (block l') /\
    crun shape opsem cst tab (named stale_prog) env [] "w" = opsem "Abs" (shape F4) [shape F4] [env "b"] /\
    crun shape opsem cst tab (named l') env [] "w" = opsem "Abs" (shape F4) [shape F4] [env "a"].
Proof.
  intros V S shape opsem cst tab env CN SH. set (G := FNamed "ML_SSE_m128_v4float32").
  set (cu := NOp (Cv 0) (un "Conversion") G [lf 0 "u"]).
  exists [(Id 0, F4, "u", lf 3 "a"); (Id 1, F4, "v", NOp (Cv 1) (un "Conversion") F4 [NOp (Cp (Id 5)) (un "Negation") G [cu]]);
          (Id 0, F4, "u", lf 4 "b"); (Id 2, F4, "w", NOp (Cv 2) (un "Conversion") F4 [NOp (Cp (Id 6)) (un "Abs") G [cu]])].
  split; [reflexivity|]. split; [reflexivity|].
  assert (shape G = shape F4) as EG by (apply SH; reflexivity).
  transitivity (opsem "Conversion" (shape F4) [shape G] [opsem "Abs" (shape G) [shape G] [opsem "Conversion" (shape G) [shape F4] [env "a"]]]); [reflexivity|].
  rewrite EG, !CN. reflexivity.
Qed.
Example promotion_stale_ex : conversions_neutral (fun o (_ : unit) _ (l : list Z) => match l with [v] => if String.eqb o "Conversion" then v else (v + 1)%Z | _ => 0%Z end).
Proof. intros s v. reflexivity. Qed.
Example promotion_run_ex : let l := firstn 2 stale_prog in coherent (stmt_nodes (block l)) /\ assigned_first [] (plain l).
Proof.
  cbv zeta. split.
  - intros a b Ha Hb. cbn in Ha, Hb. repeat destruct Ha as [<-|Ha]; try destruct Ha; repeat destruct Hb as [<-|Hb]; try destruct Hb; cbn [nid lf]; intro E; try discriminate E; reflexivity.
  - cbn. repeat split; intro H; repeat (destruct H as [H|H]; [discriminate H|]); destruct H.
Qed.
Print Assumptions promotion_refines.
Print Assumptions promotion_value.
Print Assumptions intel_tables.
Print Assumptions promotion_operations.
Print Assumptions promotion_twice.
Print Assumptions promotion_shared.
Print Assumptions promotion_levels.
Print Assumptions promotion_run_partial.
Print Assumptions promotion_stale_refuted.
