(* The C code generator: theorems, examples and refutations. *)
Require Import ZArith String List Bool Arith Lia.
From Verif Require Import NamesModel NamesProps.
From Verif Require Import CgenModel CgenSpec CgenProofs CgenSim CgenMain CgenStmt CgenTotal CgenFinal CgenScope.
Import ListNotations.
Open Scope string_scope.
Open Scope list_scope.

Definition fresh_pick (pick : list string -> string -> string) : Prop := forall l p, ~ In (pick l p) l.

(* Whatever the supply of fresh names, the order in which operands are
   generated and the meaning of the operations: the C function and the graph
   agree on the value returned, on the final value of the inputs, and on
   divergence. *)
Theorem generated_c_correct pick order opsem fuel inputs s d code st k :
  fresh_pick pick -> well_identified s -> inputs_named (map fst inputs) s -> disciplined s = true ->
  gen_fun pick order fuel (map fst inputs) s = Some (d, code) -> initial_store inputs s st ->
  match sexec opsem k s st with
  | Returned v => crun opsem k inputs (d, code) = Returned v
  | Done st' => exists E, crun opsem k inputs (d, code) = Done E /\
      forall i t, In (NVar i false t) (snodes s) -> elook t E = Some (st' i)
  | NoFuel => crun opsem k inputs (d, code) = NoFuel
  | Wrong => True
  end.
Proof.
  intros HP HW HN HD HG HI. unfold gen_fun in HG.
  destruct (gen_stmt pick order fuel _ s) as [[c g]|] eqn:EG; [|discriminate]. injection HG as <- <-.
  unfold disciplined in HD. destruct (check [] [] s) as [[K' D']|] eqn:EC; [|discriminate].
  set (PN := fun n => In n (snodes s)).
  assert (HSu : forall n m, PN n -> In m (subs n) -> PN m) by (intros n m; apply snodes_subs).
  destruct (stmt_ok pick order opsem HP PN HW HSu fuel s _ _ _ _ _ _ _ _ EG EC (fun n Hn => Hn) (start_sinv _ _ HW HN))
    as (B' & I1 & K1 & R1).
  set (E0 := [fresh_scope (level_names g); map (fun p => (fst p, Some (snd p))) inputs]).
  assert (HX : gext (snids s) (mkg [[]] [[]; map fst inputs]) g).
  { refine (gen_stmt_gext pick order HP PN HW HSu fuel s _ _ _ _ _ (fun n Hn => Hn) EG); discriminate. }
  assert (HH : incl (ghead g) (keys (hd [] E0))).
  { unfold E0. cbn [hd]. intros x Hx. rewrite fresh_scope_keys. unfold level_names. apply -> in_rev. exact Hx. }
  assert (HA : agree opsem E0 (start s) st).
  { intros x n Hx. pose proof Hx as Hx'. apply in_start in Hx as (i & -> & Hx). unfold E0. cbn [elook].
    assert (HF : slook x (fresh_scope (level_names g)) = None).
    { destruct (slook x (fresh_scope (level_names g))) eqn:Q; [|reflexivity]. exfalso.
      assert (Hk : In x (keys (fresh_scope (level_names g)))).
      { clear - Q. induction (fresh_scope (level_names g)) as [|[y w] l IH]; cbn [slook keys map fst] in *; [discriminate|].
        destruct (String.eqb_spec y x); [left; assumption|right; auto]. }
      rewrite fresh_scope_keys in Hk. unfold level_names in Hk. apply in_rev in Hk.
      destruct (x_fresh _ _ _ HX x Hk) as [Hh|Hh]; [destruct Hh|]. apply Hh. cbn [scopes concat app]. rewrite app_nil_r.
      eapply (proj1 HN); eauto. }
    rewrite HF. rewrite (HI i x Hx). reflexivity. }
  specialize (R1 k E0 st HA HH ltac:(discriminate)). unfold crun. cbn [fst snd]. fold E0.
  destruct (sexec opsem k s st) as [st'|v| |]; try exact R1.
  destruct R1 as (E' & H1 & H2 & H3). exists E'. split; [exact H1|]. intros i t Hi.
  apply (H2 t (NVar i false t)). apply (s_in _ _ _ _ _ I1). exact Hi.
Qed.

(* generation never fails: the assignment targets are variables and the
   recursion is allowed to go as deep as the graph *)
Theorem generation_total pick order fuel names s :
  well_identified s -> targets_ok s -> (forall n, In n (snodes s) -> nsize n <= fuel) -> 0 < fuel ->
  exists f, gen_fun pick order fuel names s = Some f.
Proof.
  intros HW HT HF H0. set (PN := fun n => In n (snodes s)).
  destruct (gen_stmt_total pick order PN HW (fun n m => @snodes_subs s n m) fuel s (fun n Hn => conj Hn (HF n Hn)) HT H0 (mkg [[]] [[]; names]))
    as (code & g & E & _).
  - intros l k c n [<-|[]] [].
  - unfold gen_fun. rewrite E. eauto.
Qed.

(* A graph that only tests and returns is always generated correctly. *)
Fixpoint decision (s : stmt) : bool :=
  match s with
  | SSkip => true
  | SSeq a b => decision a && decision b
  | SExpr e | SReturn e => forallb (fun n => negb (is_local n)) (subs e)
  | SIf c t e => forallb (fun n => negb (is_local n)) (subs c) && decision t && decision e
  | _ => false
  end.
Lemma decision_assigned s : decision s = true -> assigned s = [].
Proof.
  induction s; cbn [decision assigned]; intros H; try discriminate; try reflexivity;
    repeat match goal with H : _ && _ = true |- _ => apply andb_true_iff in H as [? ?] end; rewrite IHs1, IHs2 by assumption; reflexivity.
Qed.
Lemma stale_nil K : stale K [] = [].
Proof.
  unfold stale. induction K as [|n K IH]; cbn [filter]; [reflexivity|].
  replace (is_op n && reads [] n) with false; [exact IH|]. pose proof (keep_nil n) as Hk. unfold keep in Hk.
  symmetry. apply negb_true_iff. exact Hk.
Qed.
Lemma decision_check s : decision s = true -> forall K, exists K', check K [] s = Some (K', []).
Proof.
  assert (HU : forall e K, forallb (fun n => negb (is_local n)) (subs e) = true -> usable K [] e = true).
  { intros e K H. unfold usable. apply forallb_forall. intros m Hm. eapply forallb_forall in H; [|exact Hm].
    cbn [memb existsb negb andb]. rewrite H. reflexivity. }
  induction s as [|s1 IH1 s2 IH2|e|v e|c t IHt e IHe|i IHi c b IHb|e]; cbn [decision check]; intros H K; try discriminate.
  - eauto.
  - apply andb_true_iff in H as [H1 H2]. destruct (IH1 H1 K) as (K1 & ->). apply IH2. exact H2.
  - rewrite (HU e K H). eauto.
  - apply andb_true_iff in H as [H H2]. apply andb_true_iff in H as [H0 H1]. rewrite (HU c K H0). cbv zeta.
    destruct (IHt H1 (subs c ++ K)) as (K1 & ->). destruct (IHe H2 (subs c ++ K)) as (K2 & ->).
    rewrite (decision_assigned t H1), (decision_assigned e H2), stale_nil. eauto.
  - rewrite (HU e K H). eauto.
Qed.
Theorem decision_graph_correct pick order opsem inputs s st k v :
  fresh_pick pick -> well_identified s -> inputs_named (map fst inputs) s -> decision s = true -> initial_store inputs s st ->
  sexec opsem k s st = Returned v ->
  exists f, gen_fun pick order (S (list_max (map nsize (snodes s)))) (map fst inputs) s = Some f /\
    crun opsem k inputs f = Returned v.
Proof.
  intros HP HW HN HD HI HE.
  assert (HT : targets_ok s).
  { clear - HD. induction s; cbn [decision targets_ok] in *; try discriminate; try exact I;
      repeat match goal with H : _ && _ = true |- _ => apply andb_true_iff in H as [? ?] end; split; auto. }
  destruct (generation_total pick order (S (list_max (map nsize (snodes s)))) (map fst inputs) s HW HT) as ([d code] & HG); [|lia|].
  - intros n Hn. assert (Hm : Forall (fun k => k <= list_max (map nsize (snodes s))) (map nsize (snodes s))) by (apply list_max_le; lia).
    rewrite Forall_forall in Hm. specialize (Hm (nsize n) (in_map nsize _ _ Hn)). lia.
  - exists (d, code). split; [exact HG|].
    assert (HC : disciplined s = true) by (unfold disciplined; destruct (decision_check s HD []) as (K & ->); reflexivity).
    pose proof (generated_c_correct pick order opsem _ inputs s d code st k HP HW HN HC HG HI) as R. rewrite HE in R. exact R.
Qed.

(* Sharing: the code of an expression has one assignment for each operation
   that has a variable of its own, however many times the graph refers to it. *)
Theorem each_operation_once pick order fuel names e d code :
  fresh_pick pick -> well_identified (SReturn e) -> gen_fun pick order fuel names (SReturn e) = Some (d, code) ->
  exists pre r, code = pre ++ [CReturn r] /\
    length pre = length (nodup Nat.eq_dec (map nid (filter own_var (subs e)))).
Proof.
  intros HP HW HG. unfold gen_fun in HG. cbn [gen_stmt] in HG.
  destruct (gen pick order fuel false _ e) as [[[c r] g]|] eqn:EG; [|discriminate]. injection HG as <- <-.
  exists c, (cget r). split; [reflexivity|].
  set (PN := fun n => In n (snodes (SReturn e))).
  destruct (gen_once pick order PN HW (fun n m => @snodes_subs (SReturn e) n m) HP fuel _ _ _ _ _ EG)
    as (_ & _ & _ & L & HL & HN & H1 & H2); try discriminate.
  - apply subs_self.
  - intros n m _ Hh. unfold has in Hh. cbn in Hh. congruence.
  - rewrite <- HL. apply Nat.le_antisymm.
    + apply NoDup_incl_length; [exact HN|]. intros k Hk. apply nodup_In. destruct (H1 k Hk) as [_ (m & Hm & Om & <-)].
      apply in_map. apply filter_In. auto.
    + apply NoDup_incl_length; [apply NoDup_nodup|]. intros k Hk. apply nodup_In in Hk. apply in_map_iff in Hk as (m & <- & Hm).
      apply filter_In in Hm as [Hm Om]. destruct (H2 m Hm Om) as [Hh|Hh]; [|exact Hh]. unfold has in Hh. cbn in Hh. congruence.
Qed.

(* No block declares a name twice; no declaration hides an input. *)
Theorem declarations_ok pick order fuel names s d code :
  fresh_pick pick -> NoDup names -> gen_fun pick order fuel names s = Some (d, code) ->
  decl_ok names d /\ Forall (scoped names) code.
Proof. intros HP. apply gen_fun_scoped. exact HP. Qed.

(* ---------- a supply of fresh names, as MultiSymbolTable.get_free_name ---------- *)
Definition pick0 (l : list string) (p : string) : string :=
  let free := fun x => negb (existsb (String.eqb x) l) in
  if free p then p else
  match search free p (S (length l)) 0 with Some i => numbered p i | None => "" end.
Theorem pick0_fresh : fresh_pick pick0.
Proof.
  intros l p. unfold pick0.
  assert (HF : forall x, negb (existsb (String.eqb x) l) = true -> ~ In x l).
  { intros x Hx Hi. apply negb_true_iff in Hx. assert (existsb (String.eqb x) l = true); [|congruence].
    apply existsb_exists. exists x. split; [exact Hi|apply String.eqb_refl]. }
  destruct (negb (existsb (String.eqb p) l)) eqn:E; [apply HF; exact E|].
  destruct (search_total (fun x => negb (existsb (String.eqb x) l)) l) with (p := p) (fuel := S (length l)) (k := 0) as [i Hi]; [|lia|].
  - intros n Hn. apply negb_false_iff in Hn. apply existsb_exists in Hn as (x & Hx & Q). apply String.eqb_eq in Q. subst x. exact Hx.
  - rewrite Hi. apply HF. exact (proj1 (search_spec _ _ _ _ _ Hi)).
Qed.

(* ---------- examples ---------- *)
Open Scope Z_scope.
Definition sem0 (op : string) (l : list Z) : Z :=
  match l with
  | [a; b] => if String.eqb op "+" then a + b else if String.eqb op "-" then a - b else if String.eqb op "*" then a * b
              else if String.eqb op "<" then (if a <? b then 1 else 0) else 0
  | _ => 0
  end.
Definition nx := NVar 0 false "x".
Definition ny := NVar 1 false "y".
Definition na := NVar 2 true "a".
Definition one := NCst 3 1.
Definition zero := NCst 4 0.
Definition ten := NCst 5 10.
Definition op2 (i : nat) (o : string) (a b : node) := NOp i o None "tmp" [a; b].
Ltac ident := intros n m Hn Hm;
  repeat (destruct Hn as [<-|Hn]; [repeat (destruct Hm as [<-|Hm]; [cbn; intros Q; first [reflexivity|discriminate]|]); destruct Hm|]); destruct Hn.

(* sum = x + y; diff shares sum; a test, a loop over an input and a return *)
Definition t1 := op2 10 "+" nx ny.
Definition p1 := SSeq (SAssign na t1)
  (SSeq (SLoop SSkip (op2 11 "<" nx ten) (SSeq (SAssign nx (op2 12 "+" nx one)) (SAssign na (op2 13 "+" na ny))))
        (SIf (op2 14 "<" na zero) (SReturn (op2 15 "-" zero na)) (SReturn (op2 16 "*" na na)))).
Definition store1 (x y : Z) : store := fun i => match i with O => Some x | S O => Some y | _ => None end.
Example generated_c_example :
  exists d code, gen_fun pick0 (fun i => i) 20 ["x"; "y"] p1 = Some (d, code) /\ well_identified p1 /\
    inputs_named ["x"; "y"] p1 /\ disciplined p1 = true /\ initial_store [("x", 7); ("y", -5)] p1 (store1 7 (-5)) /\
    code = [CAssign "tmp" (EOp "+" [EVar "x"; EVar "y"]); CAssign "a" (EVar "tmp");
            CFor (EOp "<" [EVar "x"; ECst 10]) ["tmp0"; "tmp1"]
              [CAssign "tmp0" (EOp "+" [EVar "x"; ECst 1]); CAssign "x" (EVar "tmp0");
               CAssign "tmp1" (EOp "+" [EVar "a"; EVar "y"]); CAssign "a" (EVar "tmp1")];
            CAssign "tmp0" (EOp "<" [EVar "a"; ECst 0]);
            CIf (EVar "tmp0") ["tmp1"] [CAssign "tmp1" (EOp "-" [ECst 0; EVar "a"]); CReturn (EVar "tmp1")]
                              ["tmp1"] [CAssign "tmp1" (EOp "*" [EVar "a"; EVar "a"]); CReturn (EVar "tmp1")]] /\
    sexec sem0 5 p1 (store1 7 (-5)) = Returned 13 /\ crun sem0 5 [("x", 7); ("y", -5)] (d, code) = Returned 13 /\
    sexec sem0 2 p1 (store1 7 (-5)) = NoFuel.
Proof.
  eexists _, _. split; [vm_compute; reflexivity|]. split; [ident|]. split.
  - split; cbn; intros; repeat match goal with H : _ \/ _ |- _ => destruct H | H : _ = NVar _ _ _ |- _ => inversion H; clear H; subst | H : False |- _ => destruct H end; auto; try congruence.
  - split; [vm_compute; reflexivity|]. split; [|repeat split; vm_compute; reflexivity].
    intros i t Hi. cbn in Hi. repeat (destruct Hi as [Hi|Hi]; [first [discriminate|inversion Hi; subst; reflexivity]|]). destruct Hi.
Qed.
(* sharing: (x+y)*(x+y) * (x+y) has 3 operations with 5 references *)
Definition e2 := op2 12 "*" (op2 11 "*" t1 t1) t1.
Example each_operation_once_example :
  gen_fun pick0 (fun i => i) 20 ["x"; "y"] (SReturn e2) =
    Some (["tmp"; "tmp0"; "tmp1"],
          [CAssign "tmp" (EOp "+" [EVar "x"; EVar "y"]); CAssign "tmp0" (EOp "*" [EVar "tmp"; EVar "tmp"]);
           CAssign "tmp1" (EOp "*" [EVar "tmp0"; EVar "tmp"]); CReturn (EVar "tmp1")]) /\
  length (filter own_var (subs e2)) = 5%nat /\ length (nodup Nat.eq_dec (map nid (filter own_var (subs e2)))) = 3%nat /\
  well_identified (SReturn e2).
Proof. repeat (split; [vm_compute; reflexivity|]). ident. Qed.
Example declarations_ok_example : exists d code, gen_fun pick0 (fun i => i) 20 ["x"; "y"; "tmp"] p1 = Some (d, code) /\
  d = ["a"; "tmp0"; "tmp1"] /\ NoDup ["x"; "y"; "tmp"].
Proof.
  eexists _, _. split; [vm_compute; reflexivity|]. split; [reflexivity|].
  repeat constructor; cbn; intros H; repeat (destruct H as [H|H]; [discriminate|]); destruct H.
Qed.
Definition p3 := SIf (op2 14 "<" t1 zero) (SReturn (op2 15 "-" zero t1)) (SReturn t1).
Example decision_graph_example : decision p3 = true /\ well_identified p3 /\
  sexec sem0 1 p3 (store1 3 (-8)) = Returned 5.
Proof. split; [vm_compute; reflexivity|]. split; [ident|]. vm_compute. reflexivity. Qed.

(* ---------- refutations: why the discipline is needed ---------- *)
(* A local variable first assigned inside the two branches of a test is
   declared inside each branch; read after the test it is another variable,
   never set. *)
Definition q1 := SSeq (SIf nx (SAssign na one) (SAssign na zero)) (SReturn na).
Theorem branch_local_refuted opsem x y k :
  exists f, gen_fun pick0 (fun i => i) 20 ["x"; "y"] q1 = Some f /\
    sexec opsem k q1 (store1 x y) = Returned (if x =? 0 then 0 else 1) /\
    crun opsem k [("x", x); ("y", y)] f = Wrong.
Proof.
  eexists. split; [vm_compute; reflexivity|]. split.
  - cbn. destruct (x =? 0); reflexivity.
  - unfold crun. cbn. destruct (x =? 0); reflexivity.
Qed.
(* The memoized value of an operation survives an assignment to a variable it
   reads: x := x + 1 twice with the same node adds 1 only once. *)
Definition inc := op2 10 "+" nx one.
Definition q2 := SSeq (SAssign nx inc) (SSeq (SAssign nx inc) (SReturn nx)).
Theorem stale_value_refuted x y k :
  exists f, gen_fun pick0 (fun i => i) 20 ["x"; "y"] q2 = Some f /\
    sexec sem0 k q2 (store1 x y) = Returned (x + 1 + 1) /\ crun sem0 k [("x", x); ("y", y)] f = Returned (x + 1).
Proof. eexists. split; [vm_compute; reflexivity|]. split; reflexivity. Qed.
(* A loop opens no memoization level: an operation first met in the body is
   later taken from a variable that is out of scope. *)
Definition sq := op2 10 "*" ny ny.
Definition q3 := SSeq (SLoop SSkip (op2 11 "<" nx ten) (SAssign nx (op2 12 "+" nx sq))) (SReturn sq).
Theorem loop_body_value_refuted :
  exists f, gen_fun pick0 (fun i => i) 20 ["x"; "y"] q3 = Some f /\
    (forall x y k, sexec sem0 k q3 (store1 x y) <> NoFuel -> sexec sem0 k q3 (store1 x y) = Returned (y * y)) /\
    (forall y, crun sem0 1 [("x", 10); ("y", y)] f = Wrong) /\
    (forall y, sexec sem0 1 q3 (store1 10 y) = Returned (y * y)).
Proof.
  eexists. split; [vm_compute; reflexivity|]. split; [|split; intros y; reflexivity].
  intros x y k H1. unfold q3 in *. cbn [sexec] in *.
  assert (HL : forall j s0, s0 1%nat = Some y ->
    match sloop sem0 k (op2 11 "<" nx ten) (SAssign nx (op2 12 "+" nx sq)) j s0 with
    | Done s1 => s1 1%nat = Some y | NoFuel => True | Wrong => s0 0%nat = None | Returned _ => False end).
  { induction j as [|j IH]; intros s0 Hs; cbn [sloop]; [exact I|]. unfold op2 at 1. cbn [eval map nx ten all_some].
    destruct (s0 0%nat) as [z|] eqn:E0; cbn [all_some option_map]; [|reflexivity].
    destruct (sem0 "<" [z; 10] =? 0); [exact Hs|]. cbn [sexec]. unfold op2, sq, op2. cbn [eval map nx ny all_some]. rewrite E0, Hs.
    cbn [all_some option_map nid].
    specialize (IH (upd_store s0 0 (sem0 "+" [z; sem0 "*" [y; y]])) Hs).
    destruct (sloop sem0 k _ _ j _) as [s1|v| |]; try exact IH. discriminate. }
  specialize (HL k (store1 x y) eq_refl).
  change ((fix loop (j : nat) (st : store) {struct j} : outcome store := _) k (store1 x y))
    with (sloop sem0 k (op2 11 "<" nx ten) (SAssign nx (op2 12 "+" nx sq)) k (store1 x y)) in *.
  destruct (sloop sem0 k _ _ k (store1 x y)) as [s1|v| |].
  - unfold sq, op2. cbn [eval map ny all_some]. rewrite HL. reflexivity.
  - destruct HL.
  - discriminate.
  - congruence.
Qed.
(* An operation forced into a variable in the condition of a loop is computed
   once, before the loop, which then never ends. *)
Definition cond4 := NOp 11 "<" (Some true) "cond" [nx; ten].
Definition q4 := SSeq (SLoop SSkip cond4 (SAssign nx (op2 12 "+" nx one))) (SReturn nx).
Theorem forced_condition_refuted :
  exists f, gen_fun pick0 (fun i => i) 20 ["x"; "y"] q4 = Some f /\
    forall x y, x < 10 ->
      (exists k, sexec sem0 k q4 (store1 x y) = Returned 10) /\
      (forall k, crun sem0 k [("x", x); ("y", y)] f = NoFuel).
Proof.
  eexists. split; [vm_compute; reflexivity|]. intros x y Hx. split.
  - exists (S (Z.to_nat (10 - x))). set (k := S (Z.to_nat (10 - x))). unfold q4.
    change (sexec sem0 k (SSeq (SLoop SSkip cond4 (SAssign nx (op2 12 "+" nx one))) (SReturn nx)) (store1 x y))
      with (match sexec sem0 k (SLoop SSkip cond4 (SAssign nx (op2 12 "+" nx one))) (store1 x y) with
            | Done st1 => sexec sem0 k (SReturn nx) st1 | r => r end).
    rewrite sexec_loop. cbn [sexec].
    assert (HL : forall j z s0, s0 0%nat = Some z -> z <= 10 -> (Z.to_nat (10 - z) < j)%nat ->
      exists s1, sloop sem0 k cond4 (SAssign nx (op2 12 "+" nx one)) j s0 = Done s1 /\ s1 0%nat = Some 10).
    { induction j as [|j IH]; intros z s0 Hz Hle Hj; [lia|]. cbn [sloop]. unfold cond4 at 1. cbn [eval map nx ten all_some]. rewrite Hz.
      cbn [all_some option_map].
      change (sem0 "<" [z; 10]) with (if z <? 10 then 1 else 0).
      destruct (Z.ltb_spec z 10) as [Hlt|Hge]; cbn [Z.eqb].
      - cbn [sexec]. unfold op2. cbn [eval map nx one all_some]. rewrite Hz. cbn [all_some option_map nid].
        apply (IH (z + 1)); [reflexivity|lia|lia].
      - exists s0. split; [reflexivity|]. rewrite Hz. f_equal. lia. }
    destruct (HL k x (store1 x y) eq_refl) as (s1 & -> & H1); [lia|unfold k; lia|].
    cbn [eval nx]. rewrite H1. reflexivity.
  - intros k. unfold crun. cbn.
    change (if x <? 10 then 1 else 0) with (if x <? 10 then 1 else 0).
    destruct (Z.ltb_spec x 10) as [_|]; [|lia].
    match goal with |- context [cloop ?o ?c ?b k ?E] =>
      assert (HL : forall j x, cloop o c b j [[("cond", Some 1)]; [("x", Some x); ("y", Some y)]] = NoFuel) end.
    { induction j as [|j IH]; intros z; [reflexivity|]. cbn. apply IH. }
    rewrite HL. reflexivity.
Qed.
(* none of these graphs passes the check, each has well identified nodes *)
Example refutations_undisciplined :
  map disciplined [q1; q2; q3; q4] = [false; false; false; false] /\
  well_identified q1 /\ well_identified q2 /\ well_identified q3 /\ well_identified q4.
Proof. split; [vm_compute; reflexivity|]. split; [ident|split; [ident|split; ident]]. Qed.

Print Assumptions generated_c_correct.
Print Assumptions generation_total.
Print Assumptions decision_graph_correct.
Print Assumptions each_operation_once.
Print Assumptions declarations_ok.
Print Assumptions pick0_fresh.
Print Assumptions branch_local_refuted.
Print Assumptions stale_value_refuted.
Print Assumptions loop_body_value_refuted.
Print Assumptions forced_condition_refuted.
