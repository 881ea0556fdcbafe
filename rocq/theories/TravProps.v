(* Properties of the passes that check, tag and evaluate all nodes of a graph. *)
From Coq Require Import List Arith Bool Lia.
From Verif Require Import TravModel TravSpec TravProofs.
Import ListNotations.

(* ---- tags ---- *)
Section Tags.
Variables tag cls : Type.
Variable cls_eqb : cls -> cls -> bool.
Hypothesis cls_ok : forall a b, cls_eqb a b = true <-> a = b.
Variable class_of : nat -> cls.
Variable format : cls -> nat -> tag.
Notation tstate := (tstate tag cls).
Notation act := (tag_act tag cls cls_eqb class_of format).
Notation tag_node := (tag_node tag cls cls_eqb class_of format).
Lemma fold_tags : forall l (s : tstate), NoDup l -> exists s' num, fold_act tstate act l s = Some s'
  /\ (forall m, ~ In m l -> t_tag s' m = t_tag s m) /\ (forall m t, t_tag s m = Some t -> t_tag s' m = Some t) /\ (forall c, t_id s c <= t_id s' c)
  /\ (forall m, In m l -> t_tag s m = None -> t_tag s' m = Some (format (class_of m) (num m)) /\ t_id s (class_of m) < num m <= t_id s' (class_of m))
  /\ (forall m m', In m l -> In m' l -> t_tag s m = None -> t_tag s m' = None -> class_of m = class_of m' -> num m = num m' -> m = m').
Proof.
  induction l as [|x l IH]; intros s ND.
  - exists s, (fun _ => 0). split; [reflexivity|]. split; [reflexivity|]. split; [auto|]. split; [auto|]. split; [intros m []|intros m m' []].
  - inversion_clear ND as [|? ? NX ND']. cbn [fold_act]. unfold tag_act at 1. destruct (t_tag s x) as [tx|] eqn:TX.
    + destruct (IH s ND') as (s' & num & E & A & B & C & D & F). exists s', num. split; [exact E|]. split; [intros m Hm; apply A; intro X; apply Hm; now right|]. split; [exact B|]. split; [exact C|]. split.
      * intros m [<-|Hm] T; [congruence|apply D; assumption].
      * intros m m' [<-|Hm] [<-|Hm'] T T'; try congruence. now apply F.
    + set (k := S (t_id s (class_of x))). set (s1 := mkT (fun m => if m =? x then Some (format (class_of x) k) else t_tag s m) (fun c => if cls_eqb c (class_of x) then k else t_id s c)).
      destruct (IH s1 ND') as (s' & num & E & A & B & C & D & F). exists s', (fun m => if m =? x then k else num m). split; [exact E|].
      assert (I1 : forall c, t_id s c <= t_id s1 c) by (intro c; cbn [s1 t_id]; destruct (cls_eqb c (class_of x)) eqn:Q; [apply cls_ok in Q; subst; unfold k; lia|lia]).
      assert (K1 : t_id s1 (class_of x) = k) by (cbn [s1 t_id]; now rewrite (proj2 (cls_ok _ _) eq_refl)).
      assert (T1 : forall m, m <> x -> t_tag s1 m = t_tag s m) by (intros m NE; cbn [s1 t_tag]; now rewrite (proj2 (Nat.eqb_neq m x) NE)).
      assert (TX1 : t_tag s1 x = Some (format (class_of x) k)) by (cbn [s1 t_tag]; now rewrite Nat.eqb_refl).
      split; [intros m Hm; rewrite A by (intro X; apply Hm; now right); apply T1; intro X; subst; apply Hm; now left|].
      split; [intros m t Ht; apply B; rewrite T1 by congruence; exact Ht|]. split; [intro c; specialize (C c); specialize (I1 c); lia|]. split.
      * intros m [<-|Hm] T; [rewrite Nat.eqb_refl; split; [now apply B|]; specialize (C (class_of x)); rewrite K1 in C; unfold k in *; lia|].
        assert (NE : m <> x) by congruence. rewrite (proj2 (Nat.eqb_neq m x) NE). rewrite <- T1 in T by exact NE. destruct (D m Hm T) as [D1 D2]. split; [exact D1|]. specialize (I1 (class_of m)). lia.
      * assert (LT : forall m, In m l -> t_tag s m = None -> class_of m = class_of x -> num m <> k) by (intros m Hm T EC; assert (NE : m <> x) by congruence; rewrite <- T1 in T by exact NE; destruct (D m Hm T) as [_ D2]; rewrite EC, K1 in D2; lia).
        intros m m' [<-|Hm] [<-|Hm'] T T' EC; rewrite ?Nat.eqb_refl; [auto| | |].
        -- assert (NE : m' <> x) by congruence. rewrite (proj2 (Nat.eqb_neq m' x) NE). intro Q. destruct (LT m' Hm' T'); congruence.
        -- assert (NE : m <> x) by congruence. rewrite (proj2 (Nat.eqb_neq m x) NE). intro Q. destruct (LT m Hm T); congruence.
        -- assert (NE : m <> x) by congruence. assert (NE' : m' <> x) by congruence. rewrite (proj2 (Nat.eqb_neq m x) NE), (proj2 (Nat.eqb_neq m' x) NE'). intro Q. rewrite <- T1 in T, T' by assumption. now apply F.
Qed.
(* C134.  After the pass all nodes of the graph have a tag; tags already there and other nodes
   are untouched; tags given to two nodes differ, if names of classes do. *)
Theorem tags_given : forall children n (s : tstate), acyclic children -> exists memo s', tag_node children n s = Some (memo, s')
  /\ (forall m, reach children n m -> t_tag s' m <> None) /\ (forall m t, t_tag s m = Some t -> t_tag s' m = Some t) /\ (forall m, ~ reach children n m -> t_tag s' m = t_tag s m)
  /\ ((forall c k c' k', format c k = format c' k' -> c = c' /\ k = k') -> forall m m', reach children n m -> reach children n m' -> t_tag s m = None -> t_tag s m' = None -> t_tag s' m = t_tag s' m' -> m = m').
Proof.
  intros children n s AC. destruct (traverse_fresh children AC tstate act false n) as (memo & new & F & ND & R). destruct (fold_tags new s ND) as (s' & num & E & A & B & C & D & G). exists memo, s'. split; [unfold TravModel.tag_node; rewrite F, E; reflexivity|]. split.
  - intros m Hm. apply R in Hm. destruct (t_tag s m) as [t|] eqn:T; [rewrite (B m t T); discriminate|]. destruct (D m Hm T) as [X _]. rewrite X. discriminate.
  - split; [exact B|]. split; [intros m Hm; apply A; intro X; apply Hm; now apply R|]. intros INJ m m' Hm Hm' T T' EQ. apply R in Hm, Hm'. destruct (D m Hm T) as [X _], (D m' Hm' T') as [X' _]. rewrite X, X' in EQ. injection EQ as EQ. apply INJ in EQ. destruct EQ. now apply G.
Qed.
(* once all nodes have a tag, the pass does nothing *)
Theorem tags_kept : forall children n (s : tstate), acyclic children -> (forall m, reach children n m -> t_tag s m <> None) -> exists memo, tag_node children n s = Some (memo, s).
Proof.
  intros children n s AC T. destruct (traverse_fresh children AC tstate act false n) as (memo & new & F & ND & R). exists memo. unfold TravModel.tag_node. rewrite F. assert (E : fold_act tstate act new s = Some s); [|now rewrite E]. assert (TN : forall m, In m new -> t_tag s m <> None) by (intros m Hm; apply T; now apply R). clear - TN. induction new as [|x l IH]; [reflexivity|]. cbn [fold_act]. unfold tag_act at 1. destruct (t_tag s x) eqn:E; [apply IH; intros m Hm; apply TN; now right|]. destruct (TN x (or_introl eq_refl) E).
Qed.
End Tags.
(* counters are by class and tags by name of class (Loop and RangeLoop have the same name, "Loop") *)
Definition two (n : nat) : list nat := match n with 2 => [0; 1] | _ => [] end.
Theorem same_name_refuted : forall (tag : Type) (format : bool -> nat -> tag), (forall k, format true k = format false k) ->
  exists memo s', tag_node tag bool Bool.eqb (fun n => Nat.eqb n 0) format two 2 (mkT (fun _ => None) (fun _ => 0)) = Some (memo, s') /\ t_tag s' 0 = t_tag s' 1.
Proof. intros tag format H. eexists. eexists. split; [reflexivity|]. cbn. now rewrite H. Qed.
(* tags already there are not looked at: a tag given may be that of another node *)
Theorem existing_tag_refuted : forall (tag cls : Type) cls_eqb (c : cls) (format : cls -> nat -> tag), cls_eqb c c = true ->
  exists memo s', tag_node tag cls cls_eqb (fun _ => c) format two 2 (mkT (fun m => if Nat.eqb m 0 then Some (format c 1) else None) (fun _ => 0)) = Some (memo, s') /\ t_tag s' 0 = t_tag s' 1.
Proof. intros tag cls cls_eqb c format H. eexists. eexists. split; [unfold tag_node; cbn; rewrite H; reflexivity|]. reflexivity. Qed.

(* ---- debug ---- *)
(* the pass sets debug on the nodes of the graph with a listed tag; it clears it on the others unless given True *)
Theorem debug_set : forall (tag : Type) tag_eqb tag_of children d n s, acyclic children -> (forall a b, tag_eqb a b = true <-> a = b) -> exists memo s', enable_debug tag tag_eqb tag_of children d n s = Some (memo, s')
  /\ (forall m, ~ reach children n m -> s' m = s m)
  /\ (forall m t, reach children n m -> tag_of m = Some t -> In t (tag_list tag d) -> s' m = Mapping)
  /\ (forall m, reach children n m -> (forall t, tag_of m = Some t -> ~ In t (tag_list tag d)) -> s' m = match d with DTrue => s m | _ => Off end).
Proof.
  intros tag tag_eqb tag_of children d n s AC TE. destruct (traverse_fresh children AC _ (debug_act tag tag_eqb tag_of d) true n) as (memo & new & F & ND & R). unfold enable_debug.
  set (res := fun m => if in_list tag tag_eqb (tag_of m) (tag_list tag d) then Mapping else if negb (default_tags tag d) then Off else s m).
  assert (FD : forall l s0, NoDup l -> exists s', fold_act _ (debug_act tag tag_eqb tag_of d) l s0 = Some s' /\ (forall m, ~ In m l -> s' m = s0 m) /\ (forall m, In m l -> s' m = if in_list tag tag_eqb (tag_of m) (tag_list tag d) then Mapping else if negb (default_tags tag d) then Off else s0 m)).
  { induction l as [|x l IH]; intros s0 NDl; [exists s0; split; [reflexivity|]; split; [reflexivity|intros m []]|]. inversion_clear NDl as [|? ? NX NDl']. cbn [fold_act debug_act]. match goal with |- context [fold_act _ _ l ?q] => destruct (IH q NDl') as (s' & E & A & B) end. exists s'. split; [exact E|]. split.
    - intros m Hm. rewrite A by (intro X; apply Hm; now right). destruct (Nat.eqb_spec m x) as [->|NE]; [destruct Hm; now left|reflexivity].
    - intros m [<-|Hm]; [rewrite A by exact NX; now rewrite Nat.eqb_refl|]. rewrite B by exact Hm. destruct (Nat.eqb_spec m x) as [->|NE]; [contradiction|reflexivity]. }
  destruct (FD new s ND) as (s' & E & A & B). exists memo, s'. rewrite F, E. split; [reflexivity|]. split; [intros m Hm; apply A; intro X; apply Hm; now apply R|]. split.
  - intros m t Hm T IN. rewrite B by now apply R. rewrite T. cbn [in_list]. assert (X : existsb (tag_eqb t) (tag_list tag d) = true) by (apply existsb_exists; exists t; split; [exact IN|now apply TE]). now rewrite X.
  - intros m Hm T. rewrite B by now apply R. assert (X : in_list tag tag_eqb (tag_of m) (tag_list tag d) = false).
    { destruct (tag_of m) as [t|] eqn:Q; [|reflexivity]. cbn [in_list]. apply not_true_iff_false. intro X. apply existsb_exists in X. destruct X as (y & Hy & Y). apply TE in Y. subst y. exact (T t eq_refl Hy). }
    rewrite X. destruct d; reflexivity.
Qed.

(* ---- support ---- *)
Section Support.
Variable children : nat -> list nat.
Hypothesis AC : acyclic children.
Variable lang : Type.
Variable c_code : lang.
Variable checked : nat -> bool.
Variable supported : lang -> nat -> bool.
Notation check_target_support := (check_target_support children lang c_code checked supported).
Lemma fold_support : forall l, fold_act unit (support_act lang checked supported c_code) l tt = if forallb (fun n => negb (checked n && negb (supported c_code n))) l then Some tt else None.
Proof. induction l as [|x l IH]; [reflexivity|]. cbn [fold_act forallb]. unfold support_act at 1. destruct (checked x && negb (supported c_code x)); [reflexivity|exact IH]. Qed.
Lemma check_inputs_loop : forall m cs memo, check_inputs children lang c_code checked supported m cs memo = match loop unit (traverse children unit (support_act lang checked supported c_code) false m) cs memo tt with Some (memo', _) => Some memo' | None => None end.
Proof. intro m. induction cs as [|c cs IH]; intro memo; [reflexivity|]. cbn [check_inputs loop]. destruct (traverse children unit (support_act lang checked supported c_code) false m c memo tt) as [[m1 []]|]; [apply IH|reflexivity]. Qed.
(* what is accepted: the root in the language asked, all other nodes in C *)
Theorem support_checked : forall l n, check_target_support l n = Some true <-> (checked n = true -> supported l n = true) /\ (forall m, reach children n m -> m <> n -> checked m = true -> supported c_code m = true).
Proof.
  intros l n. unfold TravModel.check_target_support. rewrite check_inputs_loop. destruct (loop_good children AC unit (support_act lang checked supported c_code) false n (children n) []) as (memo & new & F & G); [intros c Hc; exact (AC n c Hc)|]. rewrite F, fold_support. destruct (good_fresh _ _ _ _ G) as [ND R].
  assert (RN : forall m, In m new <-> reach children n m /\ m <> n).
  { intro m. rewrite R. split; [intros (c & Hc & X); split; [eapply reach_child; eassumption|]; pose proof (AC n c Hc); pose proof (reach_le _ AC _ _ X); lia|]. intros [X NE]. apply reach_inv in X. destruct X as [X|X]; [contradiction|exact X]. }
  assert (FA : forallb (fun x => negb (checked x && negb (supported c_code x))) new = true <-> forall m, reach children n m -> m <> n -> checked m = true -> supported c_code m = true).
  { rewrite forallb_forall. split; [intros H m X NE CH; specialize (H m (proj2 (RN m) (conj X NE))); rewrite CH in H; now destruct (supported c_code m)|]. intros H x Hx. apply RN in Hx. destruct Hx as [X NE]. destruct (checked x) eqn:CH; [|reflexivity]. now rewrite (H x X NE CH). }
  destruct (forallb _ new); unfold support_act.
  - assert (FA' := proj1 FA eq_refl). destruct (checked n), (supported l n); cbn [andb negb]; split; try discriminate; auto. intros [X _]. specialize (X eq_refl). discriminate X.
  - split; [discriminate|]. intros [_ X]. apply FA in X. discriminate X.
Qed.
Theorem support_true : forall l n b, check_target_support l n = Some b -> b = true.
Proof. intros l n b. unfold TravModel.check_target_support. destruct (check_inputs _ _ _ _ _ _ _ _); [|discriminate]. destruct (support_act lang checked supported l n tt); [|discriminate]. intro E. now injection E. Qed.
(* in C this is the support of all nodes *)
Theorem support_c : forall n, check_target_support c_code n = Some true <-> forall m, reach children n m -> checked m = true -> supported c_code m = true.
Proof.
  intro n. rewrite support_checked. split; [intros [A B] m X CH; destruct (Nat.eq_dec m n) as [->|NE]; auto|]. intro H. split; [apply H; apply reach_self|intros m X _; now apply H].
Qed.
(* in another language, nodes below the root are accepted although unsupported, and refused although supported *)
Theorem language_refuted : forall l n m, reach children n m -> m <> n -> checked m = true ->
  (supported l m = false -> (forall x, reach children n x -> supported c_code x = true) -> supported l n = true -> check_target_support l n = Some true)
  /\ (supported c_code m = false -> (forall x, reach children n x -> supported l x = true) -> check_target_support l n <> Some true).
Proof.
  intros l n m R NE CH. split.
  - intros _ SC SL. apply support_checked. split; [intros _; exact SL|intros x X _ _; now apply SC].
  - intros NC _ X. apply support_checked in X. destruct X as [_ X]. specialize (X m R NE CH). congruence.
Qed.
End Support.

(* ---- checks of all nodes ---- *)
(* the first execution says whether all nodes of the graph meet the check *)
Theorem check_first : forall children check n, acyclic children -> exists b, executes children check [n] [] = [b] /\ (b = true <-> forall m, reach children n m -> check m = true).
Proof.
  intros children check n AC. destruct (execute_fresh children AC check n) as (_ & _ & H). cbn [executes]. destruct (execute children check (S n) n []) as [memo b] eqn:E. exists b. split; [reflexivity|exact H].
Qed.
(* the same pass object then answers for the root alone, whatever is below *)
Theorem check_again_refuted : forall children check n m, acyclic children -> reach children n m -> exists b, executes children check [n; m] [] = [b; check m].
Proof.
  intros children check n m AC R. destruct (execute_fresh children AC check n) as (OK & D & _). cbn [executes]. destruct (execute children check (S n) n []) as [memo b] eqn:E. cbn [fst] in OK, D. exists b. apply D in R. rewrite execute_S. unfold dom in R. destruct (lookup m memo) as [v|] eqn:L; [|congruence]. now rewrite (OK m v L).
Qed.
(* a second graph sharing nodes with the first is then accepted with faulty nodes *)
Theorem check_shared_refuted : forall children check n r m, acyclic children -> children r = [n] -> reach children n m -> check m = false -> check n = true -> check r = true ->
  executes children check [n; r] [] = [false; true] /\ reach children r m.
Proof.
  intros children check n r m AC CR R NM CN CRR. destruct (execute_fresh children AC check n) as (OK & D & H). split; [|eapply reach_child; [rewrite CR; now left|exact R]]. cbn [executes]. destruct (execute children check (S n) n []) as [memo b] eqn:E. cbn [fst snd] in OK, D, H.
  assert (BF : b = false) by (apply not_true_iff_false; intro X; rewrite H in X; specialize (X m R); congruence). subst b. f_equal.
  assert (LN : n < r) by (apply AC; rewrite CR; now left).
  rewrite execute_S. assert (NR : lookup r memo = None) by (destruct (lookup r memo) as [v|] eqn:L; [|reflexivity]; assert (X : dom memo r) by (unfold dom; rewrite L; discriminate); apply D in X; apply (reach_le _ AC) in X; lia).
  rewrite NR, CR. cbn [gloop]. destruct r as [|r]; [lia|]. rewrite execute_S, lookup_cons. rewrite (proj2 (Nat.eqb_neq n (S r))) by lia. assert (DN : dom memo n) by (apply D; apply reach_self). unfold dom in DN. destruct (lookup n memo) as [v|] eqn:L; [|congruence]. rewrite (OK n v L), CN, CRR. reflexivity.
Qed.

(* ---- evaluation ---- *)
(* the graph is evaluated to its value given those of the inputs, and the statements displayed are, for each
   node above the inputs, that node with its value *)
Theorem errors_displayed : forall (V : Type) kind input_mapping n, acyclic (ins V kind) ->
  (exists memo v, evaluate V kind input_mapping (S n) n [] = Some (memo, v) /\ value V kind (fun m => lookup m input_mapping) n v)
  /\ exists s, generate_error_eval_graph V kind input_mapping n = Some s /\ forall m v, lookup m s = Some v <->
       lookup n input_mapping = None /\ reach (fun x => filter (unmapped V input_mapping) (ins V kind x)) n m /\ value V kind (fun m => lookup m input_mapping) m v.
Proof.
  intros V kind input_mapping n AC. set (chf := fun x => filter (unmapped V input_mapping) (ins V kind x)).
  destruct (evaluate_ok V kind input_mapping AC (S n) n [] (Nat.lt_succ_diag_r n)) as (vm & v & E & OK & CL & VN & DN & _); [intros x w X; discriminate X|intros x c X; exfalso; apply X; reflexivity|].
  split; [exists vm, v; split; [exact E|exact VN]|]. unfold generate_error_eval_graph. rewrite E. unfold node_errors. destruct (unmapped V input_mapping n) eqn:U.
  - assert (LN : lookup n input_mapping = None) by (unfold unmapped in U; destruct (lookup n input_mapping); [discriminate U|reflexivity]).
    assert (ACF : acyclic chf) by (intros x c Hc; apply filter_In in Hc; apply AC; tauto). destruct (traverse_fresh chf ACF _ (error_act V vm) true n) as (memo & new & F & ND & R). fold chf. rewrite F.
    assert (RD : forall m, reach chf n m -> dom vm m /\ unmapped V input_mapping m = true).
    { apply reach_closed; [split; assumption|]. intros m c [Dm Um] Hc. apply filter_In in Hc. destruct Hc as [Hc Uc]. split; [eapply CL; eassumption|exact Uc]. }
    assert (FD : forall l s0, (forall x, In x l -> dom vm x) -> exists s', fold_act _ (error_act V vm) l s0 = Some s' /\ forall m, lookup m s' = if mem m l then lookup m vm else lookup m s0).
    { induction l as [|x l IH]; intros s0 DL; [exists s0; split; [reflexivity|intro m; reflexivity]|]. cbn [fold_act]. unfold error_act at 1. pose proof (DL x (or_introl eq_refl)) as DX. unfold dom in DX. destruct (lookup x vm) as [w|] eqn:LX; [|congruence]. destruct (IH ((x, w) :: s0)) as (s' & E' & A); [intros y Hy; apply DL; now right|]. exists s'. split; [exact E'|].
      intro m. rewrite A, lookup_cons. change (mem m (x :: l)) with ((m =? x) || mem m l). destruct (mem m l); [now rewrite orb_true_r|]. rewrite orb_false_r. destruct (Nat.eqb_spec m x) as [->|NE]; [now rewrite LX|reflexivity]. }
    destruct (FD new []) as (s' & E' & A); [intros x Hx; apply RD; now apply R|]. rewrite E'. exists s'. split; [reflexivity|]. intros m w. rewrite A. split.
    + destruct (mem m new) eqn:M; [|discriminate]. apply mem_iff in M. intro LM. split; [exact LN|]. split; [now apply R|now apply OK].
    + intros (_ & RM & VM). assert (M : mem m new = true) by (apply mem_iff; now apply R). rewrite M. destruct (RD m RM) as [Dm _]. unfold dom in Dm. destruct (lookup m vm) as [w'|] eqn:LM; [|congruence]. f_equal. eapply (trav_value_unique V kind input_mapping AC); [apply OK; exact LM|exact VM].
  - exists []. split; [reflexivity|]. intros m w. split; [discriminate|]. intros (LN & _). unfold unmapped in U. rewrite LN in U. discriminate U.
Qed.

(* ---- samples ---- *)
(* 4 -> 3, 1; 3 -> 0, 2; 1, 2 -> 0 *)
Definition graph (n : nat) : list nat := match n with 4 => [3; 1] | 3 => [0; 2] | 2 => [0] | 1 => [0] | _ => [] end.
Example graph_acyclic : acyclic graph.
Proof. intros n c H. destruct n as [|[|[|[|[|n]]]]]; cbn in H; repeat (destruct H as [<-|H]; [lia|]); destruct H. Qed.
Definition fmt_pair (c : bool) (k : nat) : bool * nat := (c, k).
Example graph_tags : exists memo s', tag_node (bool * nat) bool Bool.eqb Nat.even fmt_pair graph 4 (mkT (fun m => if Nat.eqb m 3 then Some (true, 9) else None) (fun _ => 0)) = Some (memo, s')
  /\ map (t_tag s') [0; 1; 2; 3; 4; 5] = [Some (true, 1); Some (false, 1); Some (true, 2); Some (true, 9); Some (true, 3); None].
Proof. eexists. eexists. split; reflexivity. Qed.
Example graph_debug : exists memo s', enable_debug nat Nat.eqb (fun m => if Nat.eqb m 1 then None else Some m) graph (DList [1; 2]) 4 (fun m => Own m) = Some (memo, s')
  /\ map s' [0; 1; 2; 4; 5] = [Off; Off; Mapping; Off; Own 5].
Proof. eexists. eexists. split; reflexivity. Qed.
Example graph_default : exists memo s', enable_debug nat Nat.eqb (fun m => Some m) graph DTrue 4 (fun m => Own m) = Some (memo, s') /\ map s' [0; 5] = [Own 0; Own 5].
Proof. eexists. eexists. split; reflexivity. Qed.
(* language true is C; node 1 is supported in C only, node 2 in the other only *)
Example graph_support : check_target_support graph bool true (fun m => negb (Nat.eqb m 0)) (fun _ m => negb (Nat.eqb m 0)) true 4 = Some true
  /\ check_target_support graph bool true (fun _ => true) (fun l m => l || negb (Nat.eqb m 1)) false 4 = Some true
  /\ check_target_support graph bool true (fun _ => true) (fun l m => negb l || negb (Nat.eqb m 2)) false 4 = None.
Proof. repeat split. Qed.
Example graph_check : executes graph (fun m => negb (Nat.eqb m 0)) [4; 4; 3; 0] [] = [false; true; true; false] /\ executes graph (fun m => Nat.leb m 4) [4; 4] [] = [true; true].
Proof. split; reflexivity. Qed.
Definition graph_kind (n : nat) : ekind nat := match n with 4 => KOp nat (fun l => fold_right plus 0 l) [3; 1] | 3 => KOp nat (fun l => fold_right mult 1 l) [0; 2] | 2 => KCast nat S 0 | 1 => KCast nat (fun x => x + 10) 0 | _ => KConst nat 5 end.
Example graph_kind_acyclic : acyclic (ins nat graph_kind).
Proof. intros n c H. destruct n as [|[|[|[|[|n]]]]]; cbn in H; repeat (destruct H as [<-|H]; [lia|]); destruct H. Qed.
Example graph_errors : generate_error_eval_graph nat graph_kind [] 4 = Some [(4, 45); (1, 15); (3, 30); (2, 6); (0, 5)] /\ generate_error_eval_graph nat graph_kind [(0, 7); (2, 1)] 4 = Some [(4, 24); (1, 17); (3, 7)] /\ generate_error_eval_graph nat graph_kind [(4, 7)] 4 = Some [].
Proof. repeat split. Qed.

Print Assumptions tags_given.
Print Assumptions tags_kept.
Print Assumptions same_name_refuted.
Print Assumptions existing_tag_refuted.
Print Assumptions debug_set.
Print Assumptions support_checked.
Print Assumptions support_true.
Print Assumptions support_c.
Print Assumptions language_refuted.
Print Assumptions check_first.
Print Assumptions check_again_refuted.
Print Assumptions check_shared_refuted.
Print Assumptions errors_displayed.
