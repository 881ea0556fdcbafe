(* The generated C code computes the graph. *)
Require Import ZArith String List Bool Arith Lia.
From Verif Require Import CgenModel CgenSpec CgenProofs CgenSim CgenMain CgenStmt CgenTotal.
Import ListNotations.
Open Scope string_scope.
Open Scope list_scope.

Section Final.
  Variable pick : list string -> string -> string.
  Variable order : nat -> nat.
  Variable opsem : string -> list Z -> Z.
  Hypothesis pick_fresh : forall l p, ~ In (pick l p) l.
  Variable PN : node -> Prop.
  Hypothesis HU : forall n m, PN n -> PN m -> nid n = nid m -> n = m.
  Hypothesis HS : forall n m, PN n -> In m (subs n) -> PN m.
  Notation good := (stmt_good pick order opsem PN).

  Lemma skip_ok fuel : good fuel SSkip.
  Proof.
    intros g code g' K D K' D' B H HC HP HI. cbn [gen_stmt check] in *. injection H as <- <-. injection HC as <- <-.
    exists B. split; [exact HI|]. split; [auto|]. intros k E st HA _ HE. cbn [sexec execl]. exists E. auto.
  Qed.
  Lemma sexpr_ok fuel e : good fuel (SExpr e).
  Proof.
    intros g code g' K D K' D' B H HC HP HI. cbn [gen_stmt check snodes] in *.
    destruct (gen _ _ _ _ g e) as [[[c r] g1]|] eqn:E0; [|discriminate]. injection H as <- <-.
    destruct (usable K D e) eqn:EU; [|discriminate]. injection HC as <- <-.
    destruct (expr_ok pick order opsem pick_fresh PN HU HS fuel false g e c r g1 K D B E0 HI (HP e (subs_self e)) EU)
      as (B' & I1 & L1 & T1 & X1 & _ & R1).
    exists B'. split; [exact I1|]. split; [intros x n Hx _; apply L1, Hx|].
    intros k E st HA Hd HE. cbn [sexec]. destruct (eval opsem st e) as [v|] eqn:EV; [|exact I].
    destruct (R1 k E st v HA EV Hd HE) as (E' & Q1 & Q2 & Q3 & _). exists E'. auto.
  Qed.
  Lemma return_ok fuel e : good fuel (SReturn e).
  Proof.
    intros g code g' K D K' D' B H HC HP HI. cbn [gen_stmt check snodes] in *.
    destruct (gen _ _ _ _ g e) as [[[c r] g1]|] eqn:E0; [|discriminate]. injection H as <- <-.
    destruct (usable K D e) eqn:EU; [|discriminate]. injection HC as <- <-.
    destruct (expr_ok pick order opsem pick_fresh PN HU HS fuel false g e c r g1 K D B E0 HI (HP e (subs_self e)) EU)
      as (B' & I1 & L1 & T1 & X1 & _ & R1).
    exists B'. split; [exact I1|]. split; [intros x n Hx _; apply L1, Hx|].
    intros k E st HA Hd HE. cbn [sexec]. destruct (eval opsem st e) as [v|] eqn:EV; [|exact I].
    destruct (R1 k E st v HA EV Hd HE) as (E' & Q1 & Q2 & Q3 & Q4).
    rewrite execl_app, Q1. cbn [execl cexec]. rewrite Q4. reflexivity.
  Qed.
  Theorem stmt_ok fuel s : good fuel s.
  Proof.
    induction s as [|s1 IH1 s2 IH2|e|v e|c t IHt e IHe|i IHi c b IHb|e].
    - apply skip_ok.
    - apply (seq_ok pick order opsem); assumption.
    - apply sexpr_ok.
    - apply (assign_ok pick order opsem pick_fresh PN HU HS).
    - apply (if_ok pick order opsem pick_fresh PN HU HS); assumption.
    - apply (loop_ok pick order opsem pick_fresh PN HU HS); assumption.
    - apply return_ok.
  Qed.
End Final.

Definition is_input (n : node) : bool := match n with NVar _ false _ => true | _ => false end.
Definition tag_of (n : node) : string := match n with NVar _ _ t => t | NOp _ _ _ t _ => t | NCst _ _ => "" end.
Definition start (s : stmt) : bnd := map (fun n => (tag_of n, n)) (filter is_input (snodes s)).
Lemma in_start s x n : In (x, n) (start s) <-> exists i, n = NVar i false x /\ In n (snodes s).
Proof.
  unfold start. rewrite in_map_iff. split.
  - intros (m & Q & Hm). injection Q as Q1 Q2. apply filter_In in Hm as [Hm Hi]. subst m.
    destruct n as [i [|] t|?|]; try discriminate. cbn [tag_of] in Q1. subst t. exists i. auto.
  - intros (i & -> & Hn). exists (NVar i false x). split; [reflexivity|]. apply filter_In. auto.
Qed.

Theorem start_sinv names s : well_identified s -> inputs_named names s ->
  sinv (fun n => In n (snodes s)) (mkg [[]] [[]; names]) [] [] (start s).
Proof.
  intros HW [HN1 HN2]. constructor; cbn [memo scopes].
  - discriminate.
  - discriminate.
  - intros n [].
  - intros n [].
  - intros n _ _ _. cbn [memb existsb has]. split; [discriminate|]. intros H. unfold has in H. cbn in H. congruence.
  - intros n c _ _ H. discriminate.
  - intros x n H. apply in_start in H as (i & -> & H). split; [|exact H]. cbn [concat app]. rewrite app_nil_r. eapply HN1; eauto.
  - intros x n m H1 H2. apply in_start in H1 as (i & -> & H1). apply in_start in H2 as (j & -> & H2).
    rewrite (HN2 i j x H1 H2). reflexivity.
  - intros x y n H1 H2 _. apply in_start in H1 as (i & -> & H1). apply in_start in H2 as (j & Q & H2). congruence.
  - intros x n H Hl. apply in_start in H as (i & -> & H). discriminate.
  - intros i t H. apply in_start. exists i. auto.
  - intros n m _ _ H. unfold has in H. cbn in H. congruence.
  - intros x n H. apply in_start in H as (i & -> & H). reflexivity.
Qed.
