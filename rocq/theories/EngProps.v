(* What the lowering engine gives, and what is wrong. *)
From Coq Require Import List Arith Bool ZArith Lia.
From Verif Require Import EngModel EngSpec EngProofs.
Import ListNotations.

(* actions keeping values: the graph given has the value of the graph received; objects
   known before, changed in place, keep theirs *)
Theorem lowering_keeps_values : forall get_action V sem, (forall c act, get_action c = Some act -> extending act) ->
  (forall c act, get_action c = Some act -> keeps_value V sem act) ->
  forall n h root h' r val, closed h -> root < length h -> execute_on_graph get_action n h root = Some (h', r) -> valuation V sem h val ->
  exists val', (forall k, k < length h -> val' k = val k) /\ valuation V sem h' val' /\ val' r = val root.
Proof.
  intros ga V sem EXT KEEP n h root h' r val CL L E HV. unfold execute_on_graph in E. destruct (lower ga n (mkS h []) root) as [[st r0]|] eqn:E1; [|discriminate E]. injection E as <- <-.
  destruct (lower_val ga EXT V sem KEEP n (mkS h []) root st r0 val) as (val' & A & B & _ & C); [split; [exact CL|discriminate]|exact L|exact E1|exact HV|discriminate|].
  exists val'. split; [exact A|]. split; [exact B|exact C].
Qed.

(* objects are changed in place in their operands only; nothing dangles *)
Theorem lowering_objects : forall get_action, (forall c act, get_action c = Some act -> extending act) ->
  forall n h root h' r, closed h -> execute_on_graph get_action n h root = Some (h', r) ->
  closed h' /\ r < length h' /\ forall i nd, nth_error h i = Some nd -> exists nd', nth_error h' i = Some nd' /\
    n_class nd' = n_class nd /\ n_leaf nd' = n_leaf nd /\ n_extra nd' = n_extra nd /\ length (n_inputs nd') = length (n_inputs nd).
Proof.
  intros ga EXT n h root h' r CL E. unfold execute_on_graph in E. destruct (lower ga n (mkS h []) root) as [[st r0]|] eqn:E1; [|discriminate E]. injection E as <- <-.
  destruct (lower_frame ga EXT n (mkS h []) root st r0) as (OK & FR & LR & _); [split; [exact CL|discriminate]|exact E1|].
  split; [exact (proj1 OK)|]. split; [exact LR|]. exact (f_same _ _ FR).
Qed.

(* actions giving an object that needs none: nothing of what is reached through
   operands needs an action any more, and running again changes nothing *)
Theorem lowering_complete : forall get_action, (forall c act, get_action c = Some act -> extending act) -> one_step get_action ->
  forall n h root h' r, closed h -> root < length h -> execute_on_graph get_action n h root = Some (h', r) ->
  (forall j, reach h' r j -> supported get_action h' j) /\
  forall m h2 r2, execute_on_graph get_action m h' r = Some (h2, r2) -> h2 = h' /\ r2 = r.
Proof.
  intros ga EXT ONE n h root h' r CL L E.
  assert (SU : forall j, reach h' r j -> supported ga h' j).
  { unfold execute_on_graph in E. destruct (lower ga n (mkS h []) root) as [[st r0]|] eqn:E1; [|discriminate E]. injection E as <- <-.
    destruct (lower_full ga EXT ONE n [] (mkS h []) root st r0 None) as [IV DR]; [split; [exact CL|discriminate]| |now left|exact L|exact E1|].
    - constructor; [discriminate|discriminate|discriminate|discriminate].
    - intros j R. apply (i_sup _ _ _ _ IV). clear E1. induction R as [i|i nd c j N LF Hc R IH]; [exact DR|]. apply IH.
      destruct (i_clo _ _ _ _ IV i nd DR N) as [X|[[]|X]]; [congruence|apply X; exact Hc]. }
  split; [exact SU|]. intros m h2 r2 E2. unfold execute_on_graph in E2. destruct (lower ga m (mkS h' []) r) as [[st r0]|] eqn:E1; [|discriminate E2]. injection E2 as <- <-.
  destruct (settled ga m (mkS h' []) r st r0) as (A & B & _); [discriminate|exact SU|exact E1|]. split; assumption.
Qed.

(* nothing to lower: nothing happens *)
Theorem lowering_nothing : forall get_action n h root h' r, (forall j, reach h root j -> supported get_action h j) ->
  execute_on_graph get_action n h root = Some (h', r) -> h' = h /\ r = root.
Proof.
  intros ga n h root h' r SU E. unfold execute_on_graph in E. destruct (lower ga n (mkS h []) root) as [[st r0]|] eqn:E1; [|discriminate E]. injection E as <- <-.
  destruct (settled ga n (mkS h []) root st r0) as (A & B & _); [discriminate|exact SU|exact E1|]. split; assumption.
Qed.

(* ---- what is wrong ---- *)
(* lowering in several steps: class k + 1 becomes class k *)
Definition step_down : action := fun h i =>
  match nth_error h i with
  | Some nd => Some (h ++ [mkN (n_class nd - 1) (n_leaf nd) (n_inputs nd) (n_extra nd)], length h)
  | None => None
  end.
Definition stairs (c : nat) : option action := match c with O => None | S _ => Some step_down end.
Fixpoint steps (k : nat) : heap := match k with O => [] | S j => mkN j false [] [] :: steps j end.
Fixpoint links (k i : nat) (m : list (nat * nat)) : list (nat * nat) := match k with O => (i, i) :: m | S j => links j (S i) ((i, S i) :: m) end.

Lemma stairs_extending : forall c act, stairs c = Some act -> extending act.
Proof.
  intros [|c] act H; [discriminate H|]. injection H as <-. intros h i h' r CL L E. unfold step_down in E. destruct (nth_error h i) as [nd|] eqn:N; [|discriminate E]. injection E as <- <-.
  split; [eexists; reflexivity|]. rewrite app_length. cbn [length]. split; [lia|]. intros j x y Hx Hy. rewrite app_length. cbn [length].
  destruct (lt_dec j (length h)) as [Lj|Lj].
  - rewrite nth_error_app1 in Hx by exact Lj. pose proof (CL j x y Hx Hy). lia.
  - rewrite nth_error_app2 in Hx by lia. destruct (j - length h) as [|q]; [|destruct q; discriminate Hx]. injection Hx as <-. cbn [n_inputs n_extra] in Hy. pose proof (CL i nd y N Hy). lia.
Qed.
Lemma lookup_links : forall k i m j, j < i -> lookup (links k i m) j = lookup m j.
Proof. induction k as [|k IH]; intros i m j H; cbn [links lookup]; [|rewrite IH by lia; cbn [lookup]]; (destruct (Nat.eqb_spec i j); [lia|reflexivity]). Qed.
Lemma down : forall k h m f, (forall j, length h <= j -> lookup m j = None) ->
  lower stairs (S (k + f)) (mkS (h ++ [mkN k false [] []]) m) (length h) = Some (mkS (h ++ mkN k false [] [] :: steps k) (links k (length h) m), length h + k).
Proof.
  induction k as [|k IH]; intros h m f H; cbn [lower Nat.add hp lowered].
  - rewrite H by lia. rewrite nth_error_app2 by lia. rewrite Nat.sub_diag. cbn [nth_error n_class stairs n_leaf n_inputs lower_inputs remember steps links hp lowered]. now rewrite Nat.add_0_r.
  - rewrite H by lia. rewrite nth_error_app2 by lia. rewrite Nat.sub_diag. cbn [nth_error n_class stairs]. unfold step_down. rewrite nth_error_app2 by lia. rewrite Nat.sub_diag.
    cbn [nth_error n_class n_leaf n_inputs n_extra]. unfold remember. cbn [hp lowered]. rewrite Nat.sub_succ, Nat.sub_0_r.
    specialize (IH (h ++ [mkN (S k) false [] []]) ((length h, S (length h)) :: m) f). rewrite app_length in *. cbn [length] in *. rewrite Nat.add_1_r in *.
    change (lower stairs (S (k + f)) (mkS ((h ++ [mkN (S k) false [] []]) ++ [mkN k false [] []]) ((length h, S (length h)) :: m)) (S (length h)) = Some (mkS (h ++ mkN (S k) false [] [] :: steps (S k)) (links (S k) (length h) m), length h + S k)).
    rewrite IH.
    + rewrite <- app_assoc. cbn [app steps links]. rewrite Nat.add_succ_r. reflexivity.
    + intros j Lj. cbn [lookup]. destruct (Nat.eqb_spec (length h) j); [lia|]. apply H. lia.
Qed.


Lemma hit : forall ga n st i r, lookup (lowered st) i = Some r -> lower ga (S n) st i = Some (st, r).
Proof. intros ga n st i r H. cbn [lower]. now rewrite H. Qed.
(* an operand used twice that takes several steps: its second use is left after the
   first step, however many remain, and stays unsupported *)
Theorem several_steps_refuted : forall d, exists h', execute_on_graph stairs (d + 4) [mkN 0 false [1; 1] []; mkN (S (S d)) false [] []] 0 = Some (h', 0) /\
  nth_error h' 0 = Some (mkN 0 false [d + 3; 2] []) /\ nth_error h' 2 = Some (mkN (S d) false [] []) /\ nth_error h' (d + 3) = Some (mkN 0 false [] []) /\ reach h' 0 2 /\ ~ supported stairs h' 2.
Proof.
  intro d. exists (mkN 0 false [d + 3; 2] [] :: mkN (S (S d)) false [] [] :: steps (S (S d))). split.
  - unfold execute_on_graph. replace (d + 4) with (S (S (S (S d) + 0))) by lia. pose proof (down (S (S d)) [mkN 0 false [1; 1] []] [(0, 0)] 0) as DN. cbn [length app] in DN.
    pose proof (hit stairs (S (S d) + 0)) as HT. set (F := S (S (S d) + 0)) in *. clearbody F.
    cbn [lower lookup nth_error n_class stairs n_leaf n_inputs hp lowered remember lower_inputs]. unfold remember. cbn [hp lowered]. rewrite DN; [|intros [|j] Hj; [lia|reflexivity]].
    unfold set_input at 2. cbn [hp lowered nth_error n_class n_leaf n_inputs n_extra set_at set_node]. unfold set_input. cbn [nth_error hp].
    rewrite (HT _ 1 2); [|cbn [lowered links]; rewrite lookup_links by lia; reflexivity]. cbn [hp nth_error n_class n_leaf n_inputs n_extra set_at set_node lowered].
    replace (1 + S (S d)) with (d + 3) by lia. reflexivity.
  - split; [reflexivity|]. split; [reflexivity|]. split.
    + replace (d + 3) with (S (S (S d))) by lia. cbn [nth_error]. induction d as [|d IH]; [reflexivity|]. cbn [steps nth_error] in *. exact IH.
    + split; [eapply reach_step; [reflexivity|reflexivity|right; now left|apply reach_refl]|]. intros (x & X & Y). injection X as <-. discriminate Y.
Qed.

(* what is not an operand (blocks of a switch, statement before) is not visited, for
   any actions and any object there *)
Theorem extra_inputs_refuted : forall get_action c l nd t n, get_action c = None ->
  execute_on_graph get_action (S n) (mkN c false [] l :: nd :: t) 0 = Some (mkN c false [] l :: nd :: t, 0).
Proof. intros ga c l nd t n H. unfold execute_on_graph. cbn [lower lookup nth_error n_class lowered hp n_leaf]. rewrite H. reflexivity. Qed.

(* the action of the base class (lower_node of LoweringAction gives the node back):
   operands of the node are not visited *)
Theorem same_node_refuted : forall get_action c nd t n, n_class nd = c -> get_action c = Some (fun h i => Some (h, i)) ->
  execute_on_graph get_action (S (S n)) (nd :: t) 0 = Some (nd :: t, 0).
Proof. intros ga c nd t n HC H. unfold execute_on_graph. cbn [lower lookup nth_error lowered hp]. rewrite HC, H. reflexivity. Qed.

(* an action giving a new object of the same class: the engine does not end *)
Theorem cycle_refuted : forall get_action c, get_action c = Some (fun h i => match nth_error h i with Some nd => Some (h ++ [nd], length h) | None => None end) ->
  forall n h root nd, nth_error h root = Some nd -> n_class nd = c -> execute_on_graph get_action n h root = None.
Proof.
  intros ga c H n h root nd N HC. unfold execute_on_graph.
  assert (X : forall n h m root, nth_error h root = Some nd -> lookup m root = None -> (forall j, length h <= j -> lookup m j = None) -> lower ga n (mkS h m) root = None).
  { clear n h root N. induction n as [|n IH]; intros h m root N L K; [reflexivity|]. cbn [lower lowered hp]. rewrite L, N, HC, H, N. pose proof (nth_len _ _ _ _ N) as Lr. unfold remember. cbn [hp lowered]. apply IH; cbn [lookup].
    - rewrite nth_error_app2 by lia. now rewrite Nat.sub_diag.
    - destruct (Nat.eqb_spec root (length h)); [lia|]. apply K. lia.
    - intros j Hj. rewrite app_length in Hj. cbn [length] in Hj. destruct (Nat.eqb_spec root j); [lia|]. apply K. lia. }
  rewrite (X n h [] root); [reflexivity|exact N|reflexivity|reflexivity].
Qed.

(* ---- examples ---- *)
(* class 2: negation, lowered into a subtraction (class 3) from a zero (class 4, leaf) *)
Definition lower_neg : action := fun h i =>
  match nth_error h i with
  | Some (mkN 2 false [x] []) => Some (h ++ [mkN 4 true [] []; mkN 3 false [length h; x] []], length h + 1)
  | _ => None
  end.
Definition neg_action (c : nat) : option action := if Nat.eqb c 2 then Some lower_neg else None.
(* x (leaf), - x, (- x) + - (- x), the same negation twice *)
Definition graph := [mkN 5 true [] []; mkN 2 false [0] []; mkN 2 false [1] []; mkN 1 false [1; 2] []].
Example graph_run : execute_on_graph neg_action 9 graph 3 =
  Some ([mkN 5 true [] []; mkN 2 false [0] []; mkN 2 false [1] []; mkN 1 false [5; 7] []; mkN 4 true [] []; mkN 3 false [4; 0] []; mkN 4 true [] []; mkN 3 false [6; 5] []], 3).
Proof. reflexivity. Qed.
Lemma neg_inv : forall h i h' r, lower_neg h i = Some (h', r) -> exists x, nth_error h i = Some (mkN 2 false [x] []) /\ h' = h ++ [mkN 4 true [] []; mkN 3 false [length h; x] []] /\ r = length h + 1.
Proof.
  intros h i h' r E. unfold lower_neg in E. destruct (nth_error h i) as [[c lf ins ex]|]; [|discriminate E].
  destruct c as [|[|[|c]]]; try discriminate E. destruct lf; [discriminate E|]. destruct ins as [|x [|y l]]; try discriminate E. destruct ex; [|discriminate E]. injection E as <- <-. exists x. repeat split.
Qed.
Lemma neg_extending : forall c act, neg_action c = Some act -> extending act.
Proof.
  intros c act H. unfold neg_action in H. destruct (Nat.eqb c 2); [|discriminate H]. injection H as <-. intros h i h' r CL L E. destruct (neg_inv _ _ _ _ E) as (x & N & -> & ->).
  split; [eexists; reflexivity|]. rewrite app_length. cbn [length]. split; [lia|]. intros j y z Hy Hz. rewrite app_length. cbn [length].
  destruct (lt_dec j (length h)) as [Lj|Lj]; [rewrite nth_error_app1 in Hy by exact Lj; pose proof (CL j y z Hy Hz); lia|]. rewrite nth_error_app2 in Hy by lia.
  destruct (j - length h) as [|[|q]]; [injection Hy as <-; destruct Hz| |destruct q; discriminate Hy]. injection Hy as <-. cbn in Hz. pose proof (CL i _ x N (or_introl eq_refl)). destruct Hz as [<-|[<-|[]]]; lia.
Qed.
Lemma neg_one_step : one_step neg_action.
Proof.
  intros c act h i h' r H E. unfold neg_action in H. destruct (Nat.eqb c 2); [|discriminate H]. injection H as <-. destruct (neg_inv _ _ _ _ E) as (x & N & -> & ->).
  exists (mkN 3 false [length h; x] []). split; [|reflexivity]. rewrite nth_error_app2 by lia. replace (length h + 1 - length h) with 1 by lia. reflexivity.
Qed.
Definition zsem (c : nat) (l _ : list Z) : Z := match c, l with 1, [a; b] => (a + b)%Z | 2, [a] => (- a)%Z | 3, [a; b] => (a - b)%Z | _, _ => 0%Z end.
Lemma neg_keeps : forall c act, neg_action c = Some act -> keeps_value Z zsem act.
Proof.
  intros c act H. unfold neg_action in H. destruct (Nat.eqb c 2); [|discriminate H]. injection H as <-. intros h i h' r val CL L E HV. destruct (neg_inv _ _ _ _ E) as (x & N & -> & ->).
  pose proof (CL i _ x N (or_introl eq_refl)) as Lx.
  set (val' := fun k => if Nat.ltb k (length h) then val k else if Nat.eqb k (length h) then 0%Z else (- val x)%Z).
  assert (A : forall k, k < length h -> val' k = val k) by (intros k Hk; unfold val'; destruct (Nat.ltb_spec k (length h)); [reflexivity|lia]).
  assert (V0 : val' (length h) = 0%Z) by (unfold val'; rewrite Nat.ltb_irrefl, Nat.eqb_refl; reflexivity).
  assert (V1 : val' (length h + 1) = (- val x)%Z) by (unfold val'; destruct (Nat.ltb_spec (length h + 1) (length h)); [lia|]; destruct (Nat.eqb_spec (length h + 1) (length h)); [lia|reflexivity]).
  exists val'. split; [exact A|]. split.
  - intros j y Hy LF. destruct (lt_dec j (length h)) as [Lj|Lj].
    + rewrite nth_error_app1 in Hy by exact Lj. rewrite A by exact Lj. rewrite (HV j y Hy LF). f_equal; apply map_ext_in; intros z Hz; symmetry; apply A; apply (CL j y z Hy); apply in_or_app; auto.
    + rewrite nth_error_app2 in Hy by lia. destruct (j - length h) as [|[|q]] eqn:J; [injection Hy as <-; discriminate LF| |destruct q; discriminate Hy]. injection Hy as <-.
      replace j with (length h + 1) by lia. rewrite V1. cbn [n_class n_inputs n_extra map zsem]. rewrite V0, A by exact Lx. lia.
  - rewrite V1. rewrite (HV i _ N eq_refl). reflexivity.
Qed.
Lemma graph_closed : closed graph.
Proof. intros [|[|[|[|i]]]] nd c H Hc; cbn in H; try (injection H as <-; cbn in Hc; cbn; lia). destruct i; discriminate H. Qed.
(* x = 7: the sum is 0 before and after, and nothing is left to lower *)
Example graph_values : exists val', (forall k, k < 4 -> val' k = nth k [7; -7; 7; 0]%Z 0%Z) /\
  valuation Z zsem [mkN 5 true [] []; mkN 2 false [0] []; mkN 2 false [1] []; mkN 1 false [5; 7] []; mkN 4 true [] []; mkN 3 false [4; 0] []; mkN 4 true [] []; mkN 3 false [6; 5] []] val' /\ val' 3 = 0%Z.
Proof.
  apply (lowering_keeps_values neg_action Z zsem neg_extending neg_keeps 9 graph 3 _ 3 (fun k => nth k [7; -7; 7; 0]%Z 0%Z) graph_closed); [cbn; lia|exact graph_run|].
  intros [|[|[|[|i]]]] nd H LF; cbn in H; try (injection H as <-; try discriminate LF; reflexivity). destruct i; discriminate H.
Qed.
Example graph_complete : forall j, reach [mkN 5 true [] []; mkN 2 false [0] []; mkN 2 false [1] []; mkN 1 false [5; 7] []; mkN 4 true [] []; mkN 3 false [4; 0] []; mkN 4 true [] []; mkN 3 false [6; 5] []] 3 j -> j <> 1 /\ j <> 2.
Proof.
  intros j R. destruct (lowering_complete neg_action neg_extending neg_one_step 9 graph 3 _ 3 graph_closed ltac:(cbn; lia) graph_run) as [X _]. specialize (X j R).
  split; intros ->; destruct X as (nd & N & G); injection N as <-; discriminate G.
Qed.
Example settled_graph : execute_on_graph neg_action 3 [mkN 5 true [] []; mkN 1 false [0; 0] []] 1 = Some ([mkN 5 true [] []; mkN 1 false [0; 0] []], 1).
Proof. reflexivity. Qed.
Example several_steps_small : execute_on_graph stairs 4 [mkN 0 false [1; 1] []; mkN 2 false [] []] 0 = Some ([mkN 0 false [3; 2] []; mkN 2 false [] []; mkN 1 false [] []; mkN 0 false [] []], 0).
Proof. reflexivity. Qed.
Example base_action : execute_on_graph (fun c => if Nat.eqb c 1 then Some (fun h i => Some (h, i)) else neg_action c) 5 [mkN 1 false [1; 1] []; mkN 2 false [2] []; mkN 5 true [] []] 0
  = Some ([mkN 1 false [1; 1] []; mkN 2 false [2] []; mkN 5 true [] []], 0).
Proof. reflexivity. Qed.

Print Assumptions lowering_keeps_values.
Print Assumptions lowering_objects.
Print Assumptions lowering_complete.
Print Assumptions lowering_nothing.
Print Assumptions several_steps_refuted.
Print Assumptions extra_inputs_refuted.
Print Assumptions same_node_refuted.
Print Assumptions cycle_refuted.
