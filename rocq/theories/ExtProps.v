(* Functions made of a part of a graph: what holds and what does not. *)
From Coq Require Import String List Arith Bool Lia.
From Verif Require Import ExtModel ExtSpec ExtProofs.
Import ListNotations.
Local Open Scope string_scope.

Lemma Forall2_len {A B} (P : A -> B -> Prop) l m : Forall2 P l m -> List.length l = List.length m.
Proof. intro F. induction F; [reflexivity | cbn [List.length]; congruence]. Qed.
Section Values.
Variable V : Type.
Variables (inval constval tabval : nat -> V) (opsem callsem : nat -> list V -> V).
Variable g : nat -> shape.
Variable tag : nat -> option string.
Variable default : nat -> string.
Notation eval := (eval V inval constval tabval opsem callsem g).
Notation call := (call V constval tabval opsem callsem).
Notation generate := (generate g tag default).

(* The call of the function made of an arithmetic operation, with the values of the
   arguments, has the value of the operation: if the arguments are enough and have
   different names. *)
Theorem externalized_value fuel args vs n o cs v :
  g n = Op o cs -> eval fuel n = Some v ->
  Forall2 (fun a w => exists f, eval f a = Some w) args vs ->
  covered g args n -> NoDup (arg_names tag default 0 args) ->
  exists f, generate fuel args n = Some f /\ List.length (params f) = List.length args /\ call f vs = Some v.
Proof.
  intros G E FA C ND.
  destruct (copy_total V inval constval tabval opsem callsem g tag default args fuel n v E) as [t K].
  unfold ExtModel.generate. rewrite K. eexists. split; [reflexivity |]. cbn [params].
  split; [apply names_length |]. unfold ExtModel.call. cbn [params body returned].
  rewrite (proj2 (distinct_nodup _) ND), names_length, (Forall2_len _ _ _ FA), Nat.eqb_refl, G. cbn [andb].
  exact (copy_value V inval constval tabval opsem callsem g tag default args vs ND FA fuel n t v C K E).
Qed.
(* What the function computes depends on the values of its arguments only. *)
Theorem externalized_body fuel args n f vs v (inval' : nat -> V) :
  generate fuel args n = Some f -> eval fuel n = Some v -> covered g args n -> NoDup (arg_names tag default 0 args) ->
  Forall2 (fun a w => exists k, eval k a = Some w) args vs ->
  Forall2 (fun a w => exists k, ExtModel.eval V inval' constval tabval opsem callsem g k a = Some w) args vs ->
  forall v', ExtModel.eval V inval' constval tabval opsem callsem g fuel n = Some v' -> v' = v.
Proof.
  intros GF E C ND F1 F2 v' E'. unfold ExtModel.generate in GF.
  destruct (ExtModel.copy g tag default fuel args n) as [t |] eqn:K; [| discriminate].
  pose proof (copy_value V inval constval tabval opsem callsem g tag default args vs ND F1 fuel n t v C K E) as A.
  pose proof (copy_value V inval' constval tabval opsem callsem g tag default args vs ND F2 fuel n t v' C K E') as B.
  congruence.
Qed.
(* An input variable of the caller left out of the arguments is unknown in the function,
   which then has no value for any arguments. *)
Theorem left_out_refuted fuel args n x f : reaches g args n x -> generate fuel args n = Some f -> forall vs, call f vs = None.
Proof.
  intros R GF vs. unfold ExtModel.generate in GF.
  destruct (ExtModel.copy g tag default fuel args n) as [t |] eqn:K; [| discriminate]. injection GF as <-.
  unfold ExtModel.call. destruct (_ && _ && _); [| reflexivity]. cbn [body params].
  exact (copy_free V constval tabval opsem callsem g tag default args _ x n R fuel t K).
Qed.
(* A function made of a call, a variable, a constant or a table returns nothing. *)
Theorem not_returned_refuted fuel args n f :
  (forall o cs, g n <> Op o cs) -> generate fuel args n = Some f -> forall vs, call f vs = None.
Proof.
  intros N GF vs. unfold ExtModel.generate in GF.
  destruct (ExtModel.copy g tag default fuel args n) as [t |]; [| discriminate]. injection GF as <-.
  unfold ExtModel.call. cbn [params returned].
  assert (E : match g n with Op _ _ => true | _ => false end = false) by (destruct (g n) eqn:G; try reflexivity; exfalso; exact (N _ _ eq_refl)).
  rewrite E, andb_false_r. reflexivity.
Qed.
(* Two arguments with one tag, or a tag that is the default name of another argument, make
   a function with two parameters of one name. *)
Theorem same_names_refuted fuel l1 l2 l3 a b n f :
  arg_name tag default (List.length l1) a = arg_name tag default (List.length l1 + S (List.length l2)) b ->
  generate fuel (l1 ++ a :: l2 ++ b :: l3) n = Some f -> forall vs, call f vs = None.
Proof.
  intros SN GF vs. unfold ExtModel.generate in GF.
  destruct (ExtModel.copy g tag default fuel (l1 ++ a :: l2 ++ b :: l3) n) as [t |]; [| discriminate]. injection GF as <-.
  unfold ExtModel.call. cbn [params].
  assert (D : distinct (arg_names tag default 0 (l1 ++ a :: l2 ++ b :: l3)) = false).
  { destruct (distinct _) eqn:E; [| reflexivity]. exfalso. apply distinct_nodup in E. revert E.
    assert (A : forall l m i, arg_names tag default i (l ++ m) = (arg_names tag default i l ++ arg_names tag default (i + List.length l) m)%list).
    { induction l as [| x t0 IH]; intros m i; [rewrite Nat.add_0_r; reflexivity |].
      cbn [app arg_names List.length]. rewrite IH. f_equal. f_equal. f_equal. lia. }
    rewrite A. cbn [arg_names]. rewrite A. cbn [arg_names]. intro E. apply NoDup_remove_2 in E. apply E.
    apply in_or_app. right. apply in_or_app. right. left. cbn [plus]. rewrite SN. f_equal. lia. }
  rewrite D. reflexivity.
Qed.
(* A constant table given as an argument is not one: the function reads the table itself. *)
Theorem table_argument fuel args n : g n = Table true -> ExtModel.copy g tag default (S fuel) args n = Some (TTable n).
Proof. intro G. cbn [ExtModel.copy]. unfold arg_map. rewrite G. reflexivity. Qed.
End Values.

(* The engine for externalization raises whatever it is given: the tag is passed twice.  The
   method of functions does not. *)
Theorem externalizer_refuted : externalizer_call = None /\ function_call <> None.
Proof. split; [reflexivity | discriminate]. Qed.
(* In general a call is accepted iff named arguments are formals not given by position. *)
Theorem binding_rule fs npos kws :
  py_bind fs npos kws <> None <-> forall k, In k kws -> In k fs /\ ~ In k (firstn npos fs).
Proof.
  induction kws as [| k t IH]; cbn [py_bind].
  - split; [intros _ k [] | discriminate].
  - destruct (existsb (String.eqb k) (firstn npos fs)) eqn:E1.
    + split; [congruence |]. intro H. exfalso. apply (proj2 (H k (or_introl eq_refl))). apply distinct_in. exact E1.
    + destruct (existsb (String.eqb k) fs) eqn:E2.
      * assert (B : option_map (cons k) (py_bind fs npos t) <> None <-> py_bind fs npos t <> None).
        { destruct (py_bind fs npos t); cbn [option_map]; split; congruence. }
        rewrite B, IH. split.
        -- intros H j [<- | I]; [| apply H; exact I]. split; [apply distinct_in; exact E2 |].
           intro I. apply distinct_in in I. congruence.
        -- intros H j I. apply H. right. exact I.
      * split; [congruence |]. intro H. exfalso.
        pose proof (proj1 (H k (or_introl eq_refl))) as I. apply distinct_in in I. congruence.
Qed.

(* ---- examples: (x0 + 3) * f(x1), made a function of its two operands *)
Definition ex_g (n : nat) : shape :=
  match n with
  | 0 => Input | 1 => Input | 2 => Const 3 | 3 => Op 0 [0; 2] | 4 => Call 0 [1] | 5 => Op 1 [3; 4] | _ => Table true
  end.
Definition ex_op (o : nat) (l : list nat) : nat := match o, l with 0, [a; b] => a + b | 1, [a; b] => a * b | _, _ => 0 end.
Definition ex_call (f : nat) (l : list nat) : nat := match l with [a] => S a | _ => 0 end.
Definition ex_in (n : nat) : nat := 10 + n.
Definition ex_tag (n : nat) : option string := if Nat.eqb n 3 then Some "sum" else None.
Definition ex_default (i : nat) : string := if Nat.eqb i 0 then "arg_0" else if Nat.eqb i 1 then "arg_1" else "arg_x".
Definition ex_eval := eval nat ex_in (fun k => k) (fun _ => 0) ex_op ex_call ex_g.
Example ex_value : ex_eval 5 5 = Some (13 * 12).
Proof. reflexivity. Qed.
Example ex_function : generate ex_g ex_tag ex_default 5 [3; 4] 5 =
  Some {| params := ["sum"; "arg_1"]; body := TOp 1 [TParam "sum"; TParam "arg_1"]; returned := true |}.
Proof. reflexivity. Qed.
Example ex_inputs : option_map body (generate ex_g ex_tag ex_default 5 [0; 1] 5) =
  Some (TOp 1 [TOp 0 [TParam "arg_0"; TConst 3]; TCall 0 [TParam "arg_1"]]).
Proof. reflexivity. Qed.
Example ex_covered : covered ex_g [3; 4] 5.
Proof.
  intros v R. inversion R as [n G NI | n o cs c w G NI I R' | n f cs c w G NI I R']; subst; try discriminate.
  injection G as <- <-. destruct I as [<- | [<- | []]]; inversion R' as [? G2 NI2 | ? ? ? ? ? G2 NI2 | ? ? ? ? ? G2 NI2]; subst;
    first [discriminate | apply NI2; cbn [In]; auto].
Qed.
Example ex_left_out : reaches ex_g [3] 5 1.
Proof.
  apply (r_op ex_g [3] 5 1 [3; 4] 4 1 eq_refl); [intros [X | []]; discriminate | right; left; reflexivity |].
  apply (r_call ex_g [3] 4 0 [1] 1 1 eq_refl); [intros [X | []]; discriminate | left; reflexivity |].
  apply r_here; [reflexivity | intros [X | []]; discriminate].
Qed.
Example ex_not_returned : option_map returned (generate ex_g ex_tag ex_default 5 [1] 4) = Some false.
Proof. reflexivity. Qed.
Example ex_clash : option_map params (generate ex_g (fun n => if Nat.eqb n 0 then Some "arg_1" else None) ex_default 5 [0; 1] 5) = Some ["arg_1"; "arg_1"].
Proof. reflexivity. Qed.

Print Assumptions externalized_value. Print Assumptions externalized_body. Print Assumptions left_out_refuted.
Print Assumptions not_returned_refuted. Print Assumptions same_names_refuted. Print Assumptions table_argument.
Print Assumptions externalizer_refuted. Print Assumptions binding_rule.
