(* Attributes of nodes, their defaults and copies: what holds and what does not. *)
From Coq Require Import List Arith Bool Lia.
From Verif Require Import AttrModel AttrSpec AttrProofs.
Import ListNotations.

(* ---- creation *)
Lemma attr_init_ok m n d : attr_init m n d false = Ok (match assoc m n with Some v => v | None => d end).
Proof. unfold attr_init. destruct (assoc m n); reflexivity. Qed.
(* What is given is taken, None included; the rest has the defaults on top of the stacks. *)
Theorem attributes_given s m :
  ready s -> static m -> (forall c, In c (ctors s) -> ct_required c = false) ->
  exists a, init s m = Ok a /\
    (forall v, assoc m Precision = Some v -> precision a = v) /\
    (assoc m Precision = None -> exists t, d_precision s = precision a :: t) /\
    (forall v, assoc m Silent = Some v -> silent a = v) /\
    (assoc m Silent = None -> exists t, d_silent s = silent a :: t) /\
    (forall v, assoc m RoundingMode = Some v -> rounding_mode a = v) /\
    (assoc m RoundingMode = None -> exists t, d_rounding s = rounding_mode a :: t) /\
    (forall v, assoc m Unbreakable = Some v -> unbreakable a = v) /\
    (assoc m Unbreakable = None -> unbreakable a = Some 0) /\
    (assoc m Handle = None -> handle a = Some (next_handle s)) /\
    dyn a = defaults (ctors s).
Proof.
  intros [P [S1 R]] ST RQ. unfold init.
  destruct (d_precision s) as [| p tp]; [contradiction |]. destruct (d_silent s) as [| si ts]; [contradiction |].
  destruct (d_rounding s) as [| r tr]; [contradiction |]. cbn [top bind].
  rewrite !attr_init_ok. cbn [bind]. rewrite (dyn_init_static _ _ ST RQ). cbn [bind].
  eexists. split; [reflexivity |]. cbn [precision silent rounding_mode unbreakable handle dyn].
  split; [intros v E; rewrite E; reflexivity |]. split; [intro E; rewrite E; exists tp; reflexivity |].
  split; [intros v E; rewrite E; reflexivity |]. split; [intro E; rewrite E; exists ts; reflexivity |].
  split; [intros v E; rewrite E; reflexivity |]. split; [intro E; rewrite E; exists tr; reflexivity |].
  split; [intros v E; rewrite E; reflexivity |]. split; [intro E; rewrite E; reflexivity |].
  split; [intro E; rewrite E; reflexivity | reflexivity].
Qed.

(* ---- copies *)
Lemma copy_value s a :
  ready s -> (forall c, In c (ctors s) -> ct_required c = false) ->
  get_copy s a = (do d <- copydyn (ctors s) (dyn a);
                  Ok (with_dyn {| precision := precision a; interval := interval a; debug := debug a; exact := exact a; tag := tag a;
                       max_abs_error := max_abs_error a; rel_error := rel_error a; silent := silent a; handle := handle a;
                       clearprevious := clearprevious a; rounding_mode := rounding_mode a;
                       prevent_optimization := prevent_optimization a; unbreakable := Some 0; dyn := [] |} d)).
Proof.
  intros [P [S1 R]] RQ. unfold get_copy, init.
  destruct (d_precision s) as [| p tp]; [contradiction |]. destruct (d_silent s) as [| si ts]; [contradiction |].
  destruct (d_rounding s) as [| r tr]; [contradiction |]. cbn [top bind attr_init assoc name_eqb].
  rewrite dyn_init_static; [| intro n; reflexivity | exact RQ]. cbn [bind].
  destruct (copydyn (ctors s) (dyn a)); reflexivity.
Qed.
(* A copy has the attributes of the node, the same handle, and does not depend on the
   defaults: but it can always be broken. *)
Theorem copy_attributes s a :
  ready s -> (forall c, In c (ctors s) -> ct_required c = false) ->
  (forall c, In c (ctors s) -> exists v, getdyn (dyn a) (ct_name c) = Ok v) ->
  exists b, get_copy s a = Ok b /\ same_but_unbreakable a b /\ same_dyn (ctors s) a b /\ unbreakable b = Some 0.
Proof.
  intros RD RQ GD. rewrite copy_value by assumption.
  destruct (copydyn_same (ctors s) (dyn a) GD) as [r [E H]]. rewrite E. cbn [bind].
  eexists. split; [reflexivity |]. split; [| split; [| reflexivity]].
  - unfold same_but_unbreakable, with_dyn. cbn. repeat (split; [reflexivity |]). reflexivity.
  - intros c I. cbn [with_dyn dyn]. symmetry. apply H. exact I.
Qed.
(* A sum that must not be fused with a product may be fused once copied. *)
Theorem copy_unbreakable_refuted s a b k :
  ready s -> (forall c, In c (ctors s) -> ct_required c = false) ->
  unbreakable a = Some (S k) -> get_copy s a = Ok b ->
  may_fuse true a = false /\ may_fuse true b = true.
Proof.
  intros RD RQ U E. rewrite copy_value in E by assumption. destruct (copydyn (ctors s) (dyn a)); [| discriminate].
  cbn [bind] in E. injection E as <-. unfold may_fuse. rewrite U. split; reflexivity.
Qed.
(* A node with a required dynamic attribute cannot be copied. *)
Theorem copy_required_refuted s a :
  ready s -> (exists c, In c (ctors s) /\ ct_required c = true) -> get_copy s a = Raise /\ get_light_copy s a = Raise.
Proof.
  intros [P [S1 R]] RQ. unfold get_copy, get_light_copy, init.
  destruct (d_precision s) as [| p tp]; [contradiction |]. destruct (d_silent s) as [| si ts]; [contradiction |].
  destruct (d_rounding s) as [| r tr]; [contradiction |]. cbn [top bind attr_init assoc name_eqb].
  rewrite !dyn_init_required; [| intro n; reflexivity | exact RQ | intro n; reflexivity | exact RQ]. split; reflexivity.
Qed.
(* A light copy keeps the format, debug, tag, silence, handle, rounding mode; it has no
   interval, exactness or errors, and dynamic attributes have their defaults. *)
Theorem light_copy s a :
  ready s -> (forall c, In c (ctors s) -> ct_required c = false) ->
  exists b, get_light_copy s a = Ok b /\
    precision b = precision a /\ debug b = debug a /\ tag b = tag a /\ silent b = silent a /\ handle b = handle a /\
    clearprevious b = clearprevious a /\ rounding_mode b = rounding_mode a /\ prevent_optimization b = prevent_optimization a /\
    interval b = None /\ exact b = None /\ max_abs_error b = None /\ rel_error b = None /\ unbreakable b = Some 0 /\
    dyn b = defaults (ctors s).
Proof.
  intros [P [S1 R]] RQ. unfold get_light_copy, init.
  destruct (d_precision s) as [| p tp]; [contradiction |]. destruct (d_silent s) as [| si ts]; [contradiction |].
  destruct (d_rounding s) as [| r tr]; [contradiction |]. cbn [top bind attr_init assoc name_eqb].
  rewrite dyn_init_static; [| intro n; reflexivity | exact RQ]. cbn [bind].
  eexists. split; [reflexivity |]. cbn. repeat (split; [reflexivity |]). reflexivity.
Qed.

(* ---- defaults *)
(* Defaults set and unset in a well bracketed way are as before. *)
Theorem defaults_restored s l : balanced l -> do_calls s l = s.
Proof. intro B. apply balanced_same. exact B. Qed.
(* In such a block the default is the one last set. *)
Theorem default_inside s v l : balanced l -> exists t, d_precision (do_calls s (SetDefault v :: l)) = v :: t.
Proof.
  intro B. cbn [do_calls]. rewrite (balanced_same l B). cbn [do_call fst with_precision d_precision]. eexists. reflexivity.
Qed.
(* The unset that is refused is done: after it no node can be created, in any way. *)
Theorem unset_refused_refuted s v :
  d_precision s = [v] ->
  snd (do_call s UnsetDefault) = true /\ forall m, init (fst (do_call s UnsetDefault)) m = Raise.
Proof.
  intro E. unfold do_call. rewrite E. cbn [fst snd length Nat.ltb Nat.leb]. split; [reflexivity |].
  intro m. reflexivity.
Qed.

(* ---- constants *)
(* The second copy of a constant is the first one. *)
Theorem constant_copies_refuted w c :
  fst (copy_constant (snd (copy_constant w c)) c) = fst (copy_constant w c).
Proof. rewrite copy_again. reflexivity. Qed.
(* Constants get the formats asked for if none is asked for in two formats that it has not. *)
Theorem constants_formats base w l :
  copies_ok base w -> (forall c f, In (c, f) l -> c < base /\ fmt w c <> None) -> compatible (fmt w) l ->
  formats_right l (propagate_all w l) /\ forall c, c < base -> fmt (snd (propagate_all w l)) c = fmt w c.
Proof.
  intros OK RG CP.
  destruct (propagate_all_settled base (fmt w) l w [] [] OK (fun _ _ => eq_refl) RG CP (Forall2_nil _)) as [F ALL].
  split; [| exact F]. cbn [app] in ALL. unfold formats_right.
  apply (Forall2_keep _ _ _ _ ALL). intros [c f] n I [[A B] | [_ [_ B]]]; cbn [fst snd] in *.
  - subst n. destruct (RG c f I) as [CB _]. rewrite F by exact CB. exact A.
  - exact B.
Qed.
(* Otherwise the last format asked for replaces the others. *)
Theorem constant_two_formats_refuted w c p f g :
  fmt w c = Some p -> c < next w -> (forall n, find_copy (dmap w) c = Some n -> n <> c) -> f <> p -> g <> p -> f <> g ->
  exists n, fst (propagate_all w [(c, f); (c, g)]) = [n; n] /\ fmt (snd (propagate_all w [(c, f); (c, g)])) n = Some g.
Proof.
  intros P C D NF NG FG.
  assert (E1 : exists n w1, propagate w c f = (n, w1) /\ n <> c /\ find_copy (dmap w1) c = Some n /\ fmt w1 c = Some p).
  { unfold propagate. rewrite P, (proj2 (Nat.eqb_neq _ _) NF). unfold copy_constant.
    destruct (find_copy (dmap w) c) as [n |] eqn:F.
    - exists n. eexists. split; [reflexivity |]. pose proof (D n eq_refl) as N.
      split; [exact N |]. split; [exact F |]. cbn [set_precision fmt]. rewrite upd_other by congruence. exact P.
    - exists (next w). eexists. split; [reflexivity |]. split; [lia |]. cbn [set_precision fmt dmap find_copy].
      rewrite Nat.eqb_refl. split; [reflexivity |]. rewrite !upd_other by lia. exact P. }
  destruct E1 as [n [w1 [E1 [N [F1 P1]]]]]. exists n. cbn [propagate_all]. rewrite E1.
  unfold propagate. rewrite P1, (proj2 (Nat.eqb_neq _ _) NG). unfold copy_constant. rewrite F1. cbn [fst snd].
  split; [reflexivity |]. cbn [set_precision fmt]. apply upd_same.
Qed.
(* A constant without format takes the first format asked for, and so for all its uses. *)
Theorem constant_undefined w c f : fmt w c = None -> fst (propagate w c f) = c /\ fmt (snd (propagate w c f)) c = Some f.
Proof.
  intro E. unfold propagate. rewrite E. cbn [fst snd set_precision fmt]. split; [reflexivity | apply upd_same].
Qed.

(* Blocks: a constant met in any number of blocks has two nodes at most, the second being
   in the last of the blocks. *)
Theorem constant_blocks_refuted w c b bs l :
  find_copy (dmap w) c = None -> c < next w -> ~ In b (bs ++ [l]) ->
  let m := snd (bb_all w [] c (b :: bs ++ [l])) in
  bb_get m c = Some b /\ bb_get m (next w) = Some l /\ forall k, k <> c -> k <> next w -> bb_get m k = None.
Proof.
  intros F C NI. cbn [bb_all bb_put bb_get].
  assert (H : forall bs w1 m1, ~ In b (bs ++ [l]) ->
      (find_copy (dmap w1) c = Some (next w) \/ (w1 = w /\ find_copy (dmap w1) c = None)) ->
      bb_get m1 c = Some b -> (forall k, k <> c -> k <> next w -> bb_get m1 k = None) ->
      let m := snd (bb_all w1 m1 c (bs ++ [l])) in
      bb_get m c = Some b /\ bb_get m (next w) = Some l /\ forall k, k <> c -> k <> next w -> bb_get m k = None).
  { clear bs NI. intro bs. induction bs as [| x t IH]; intros w1 m1 N D G O1.
    - cbn [app bb_all]. unfold bb_put. rewrite G.
      assert (X : b <> l) by (intro X; apply N; left; symmetry; exact X). rewrite (proj2 (Nat.eqb_neq _ _) X).
      unfold copy_constant. destruct D as [D | [-> D]]; rewrite D; cbn [snd bb_get];
        rewrite Nat.eqb_refl; (split; [rewrite (proj2 (Nat.eqb_neq c (next w))) by lia; exact G | split; [reflexivity |]]);
        intros k K1 K2; rewrite (proj2 (Nat.eqb_neq _ _) K2); apply O1; assumption.
    - cbn [app bb_all]. cbv zeta. unfold bb_put. rewrite G.
      assert (X : b <> x) by (intro X; apply N; left; symmetry; exact X). rewrite (proj2 (Nat.eqb_neq _ _) X).
      assert (N' : ~ In b (t ++ [l])) by (intro Y; apply N; right; exact Y).
      unfold copy_constant. destruct D as [D | [-> D]]; rewrite D.
      + apply IH; [exact N' | left; exact D | |].
        * cbn [bb_get]. rewrite (proj2 (Nat.eqb_neq c (next w))) by lia. exact G.
        * intros k K1 K2. cbn [bb_get]. rewrite (proj2 (Nat.eqb_neq _ _) K2). apply O1; assumption.
      + apply IH; [exact N' | left; cbn [dmap find_copy]; rewrite Nat.eqb_refl; reflexivity | |].
        * cbn [bb_get]. rewrite (proj2 (Nat.eqb_neq c (next w))) by lia. exact G.
        * intros k K1 K2. cbn [bb_get]. rewrite (proj2 (Nat.eqb_neq _ _) K2). apply O1; assumption. }
  apply H; [exact NI | right; split; [reflexivity | exact F] | |].
  - cbn [bb_get]. rewrite Nat.eqb_refl. reflexivity.
  - intros k K1 K2. cbn [bb_get]. rewrite (proj2 (Nat.eqb_neq _ _) K1). reflexivity.
Qed.

(* ---- examples *)
Definition ex_cls : cls := {| d_precision := [Some 3; None]; d_rounding := [None]; d_silent := [None];
  ctors := [{| ct_name := 0; ct_default := Some 9; ct_required := false |}]; next_handle := 40 |}.
Example ex_init : exists a, init ex_cls [(Tag, Some 5); (Unbreakable, Some 1)] = Ok a /\ precision a = Some 3 /\ tag a = Some 5 /\
  handle a = Some 40 /\ dyn a = [(0, Some 9)] /\ unbreakable a = Some 1.
Proof. eexists. split; [reflexivity | repeat (split; [reflexivity |]); reflexivity]. Qed.
Example ex_none : exists a, init ex_cls [(Precision, None)] = Ok a /\ precision a = None.
Proof. eexists. split; reflexivity. Qed.
Definition ex_attrs : attrs := {| precision := Some 3; interval := Some 6; debug := None; exact := Some 1; tag := Some 5; max_abs_error := None;
  rel_error := None; silent := Some 1; handle := Some 40; clearprevious := None; rounding_mode := Some 2;
  prevent_optimization := None; unbreakable := Some 1; dyn := [(0, Some 7)] |}.
Example ex_copy : exists b, get_copy ex_cls ex_attrs = Ok b /\ interval b = Some 6 /\ dyn b = [(0, Some 7)] /\ may_fuse true b = true.
Proof. eexists. split; [reflexivity | repeat (split; [reflexivity |]); reflexivity]. Qed.
Example ex_light : exists b, get_light_copy ex_cls ex_attrs = Ok b /\ interval b = None /\ dyn b = [(0, Some 9)].
Proof. eexists. split; [reflexivity | split; reflexivity]. Qed.
Example ex_balanced : balanced [SetDefault (Some 1); SetDefault (Some 2); UnsetDefault; UnsetDefault].
Proof. exact (b_cons (Some 1) [SetDefault (Some 2); UnsetDefault] [] (b_cons (Some 2) [] [] b_nil b_nil) b_nil). Qed.
Definition ex_world : world := {| fmt := fun k => if k <? 2 then Some 8 else None; dmap := []; next := 2 |}.
Example ex_ok : copies_ok 2 ex_world.
Proof. split; [cbn; lia | split; intros; discriminate]. Qed.
Example ex_right : fst (propagate_all ex_world [(0, 16); (1, 32); (0, 8); (0, 16)]) = [2; 3; 0; 2].
Proof. reflexivity. Qed.
Example ex_compatible : compatible (fmt ex_world) [(0, 16); (1, 32); (0, 8); (0, 16)].
Proof. 
  intros c f g I J. cbn [In] in I, J.
  repeat destruct I as [I | I]; repeat destruct J as [J | J]; try contradiction;
    injection I as <- <-; injection J; intros; subst; try discriminate; cbn; auto.
 Qed.
Example ex_wrong : let r := propagate_all ex_world [(0, 16); (0, 32)] in map (fmt (snd r)) (fst r) = [Some 32; Some 32].
Proof. reflexivity. Qed.
Example ex_blocks : snd (bb_all ex_world [] 0 [10; 11; 12]) = [(2, 12); (2, 11); (0, 10)].
Proof. reflexivity. Qed.
Example ex_unset : init (fst (do_call {| d_precision := [None]; d_rounding := [None]; d_silent := [None]; ctors := []; next_handle := 0 |} UnsetDefault)) [] = Raise.
Proof. reflexivity. Qed.

Print Assumptions attributes_given. Print Assumptions copy_attributes. Print Assumptions copy_unbreakable_refuted.
Print Assumptions copy_required_refuted. Print Assumptions light_copy. Print Assumptions defaults_restored.
Print Assumptions default_inside. Print Assumptions unset_refused_refuted. Print Assumptions constant_copies_refuted.
Print Assumptions constants_formats. Print Assumptions constant_two_formats_refuted. Print Assumptions constant_undefined.
Print Assumptions constant_blocks_refuted.
