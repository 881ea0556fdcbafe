(* Proofs about functions made of a part of a graph. *)
From Coq Require Import String List Arith Bool Lia.
From Verif Require Import ExtModel ExtSpec.
Import ListNotations.

Lemma mapM_cons {A B} (f : A -> option B) a t :
  mapM f (a :: t) = match f a, mapM f t with Some b, Some r => Some (b :: r) | _, _ => None end.
Proof. reflexivity. Qed.
Lemma mapM_Forall2 {A B} (f : A -> option B) l r : mapM f l = Some r <-> Forall2 (fun a b => f a = Some b) l r.
Proof.
  revert r. induction l as [| a t IH]; intro r.
  - split; [intro E; injection E as <-; constructor | intro H; inversion H; reflexivity].
  - rewrite mapM_cons. destruct (f a) as [b |] eqn:E.
    + destruct (mapM f t) as [q |].
      * split; [intro X; injection X as <-; constructor; [exact E | apply IH; reflexivity] |].
        intro H; inversion H as [| ? ? ? ? H1 H2]; subst. apply IH in H2. congruence.
      * split; [discriminate |]. intro H; inversion H as [| ? ? ? ? H1 H2]; subst. apply IH in H2. discriminate.
    + split; [discriminate |]. intro H; inversion H; subst. congruence.
Qed.
Lemma mapM_mono {A B} (f h : A -> option B) l r :
  (forall a b, f a = Some b -> h a = Some b) -> mapM f l = Some r -> mapM h l = Some r.
Proof.
  intros H E. apply mapM_Forall2. apply mapM_Forall2 in E. induction E; constructor; [apply H; assumption | assumption].
Qed.
Lemma mapM_none {A B C} (f : A -> option B) (h : B -> option C) l r c :
  mapM f l = Some r -> In c l -> (forall b, f c = Some b -> h b = None) -> mapM h r = None.
Proof.
  intros E I N. apply mapM_Forall2 in E. induction E as [| a b l r X E IH]; [destruct I |].
  rewrite mapM_cons. destruct I as [-> | I]; [rewrite (N b X); reflexivity |].
  rewrite (IH I). destruct (h b); reflexivity.
Qed.

Section Values.
Variable V : Type.
Variables (inval constval tabval : nat -> V) (opsem callsem : nat -> list V -> V).
Variable g : nat -> shape.
Notation eval := (eval V inval constval tabval opsem callsem g).
Notation teval := (teval V constval tabval opsem callsem).

Lemma eval_mono k : forall f n v, eval f n = Some v -> eval (k + f) n = Some v.
Proof.
  intro f. induction f as [| m IH]; intros n v E; [discriminate |].
  rewrite Nat.add_succ_r. cbn [ExtModel.eval] in *. destruct (g n); try exact E.
  - destruct (mapM (eval m) cs) eqn:M; [| discriminate]. rewrite (mapM_mono _ _ _ _ IH M). exact E.
  - destruct (mapM (eval m) cs) eqn:M; [| discriminate]. rewrite (mapM_mono _ _ _ _ IH M). exact E.
Qed.
Lemma eval_same f1 f2 n v1 v2 : eval f1 n = Some v1 -> eval f2 n = Some v2 -> v1 = v2.
Proof.
  intros E1 E2. apply (eval_mono f2) in E1. apply (eval_mono f1) in E2. rewrite Nat.add_comm in E2. congruence.
Qed.

Section Args.
Variable tag : nat -> option string.
Variable default : nat -> string.
Notation arg_names := (arg_names tag default).
Notation copy := (copy g tag default).
Notation last_name := (last_name tag default).

Lemma last_name_in args n : forall i, (exists s, last_name i args n = Some s) <-> In n args.
Proof.
  induction args as [| a t IH]; intro i; cbn [ExtModel.last_name In].
  - split; [intros [s E]; discriminate | intros []].
  - destruct (last_name (S i) t n) as [s |] eqn:E.
    + split; [intros _; right; apply (IH (S i)); exists s; exact E | intros _; exists s; reflexivity].
    + destruct (Nat.eqb_spec n a) as [-> | N].
      * split; [intros _; left; reflexivity | intros _; eexists; reflexivity].
      * split; [intros [s X]; discriminate |]. intros [X | X]; [congruence |].
        apply (IH (S i)) in X. destruct X as [s X]. congruence.
Qed.
Lemma names_length args : forall i, List.length (arg_names i args) = List.length args.
Proof. induction args as [| a t IH]; intro i; [reflexivity | cbn [ExtModel.arg_names List.length]; rewrite IH; reflexivity]. Qed.
Lemma last_name_mem args n s : forall i, last_name i args n = Some s -> In s (arg_names i args).
Proof.
  induction args as [| a t IH]; intros i E; [discriminate |]. cbn [ExtModel.last_name ExtModel.arg_names In] in *.
  destruct (last_name (S i) t n) as [u |] eqn:L.
  - injection E as <-. right. apply IH. exact L.
  - destruct (Nat.eqb_spec n a) as [-> | N]; [| discriminate]. injection E as <-. left. reflexivity.
Qed.
Lemma distinct_in a l : existsb (String.eqb a) l = true <-> In a l.
Proof.
  rewrite existsb_exists. split; [intros [x [I E]]; apply String.eqb_eq in E; subst; exact I |].
  intro I. exists a. split; [exact I | apply String.eqb_refl].
Qed.
Lemma distinct_nodup l : distinct l = true <-> NoDup l.
Proof.
  induction l as [| a t IH]; cbn [distinct]; [split; [constructor | reflexivity] |].
  rewrite andb_true_iff, negb_true_iff, IH. split.
  - intros [N D]. constructor; [intro I; apply distinct_in in I; congruence | exact D].
  - intro H. inversion H; subst. split; [| assumption].
    destruct (existsb (String.eqb a) t) eqn:E; [apply distinct_in in E; contradiction | reflexivity].
Qed.
(* the parameter that stands for a node has its value *)
Lemma bound_value args vs n s : forall i,
  NoDup (arg_names i args) -> Forall2 (fun a v => exists f, eval f a = Some v) args vs ->
  last_name i args n = Some s -> exists f v, eval f n = Some v /\ bind_params V (arg_names i args) vs s = Some v.
Proof.
  intros i ND FA. revert i ND. induction FA as [| a v args vs [f H] FA IH]; intros i ND L; [discriminate |].
  cbn [ExtModel.last_name ExtModel.arg_names bind_params] in *.
  inversion ND as [| x l NI ND']; subst.
  destruct (last_name (S i) args n) as [u |] eqn:E.
  - injection L as <-. destruct (IH (S i) ND' E) as [f' [w [E1 E2]]]. exists f', w. split; [exact E1 |].
    destruct (String.eqb_spec u (arg_name tag default i a)) as [-> | _]; [| exact E2].
    exfalso. apply NI. exact (last_name_mem args n _ (S i) E).
  - destruct (Nat.eqb_spec n a) as [-> | N]; [| discriminate]. injection L as <-.
    exists f, v. split; [exact H |]. rewrite String.eqb_refl. reflexivity.
Qed.

Lemma copy_value args vs :
  NoDup (arg_names 0 args) -> Forall2 (fun a v => exists f, eval f a = Some v) args vs ->
  forall fuel n t v, covered g args n -> copy fuel args n = Some t -> eval fuel n = Some v ->
  teval (bind_params V (arg_names 0 args) vs) t = Some v.
Proof.
  intros ND FA. induction fuel as [| m IH]; intros n t v C K E; [discriminate |].
  cbn [ExtModel.copy] in K. destruct (arg_map g tag default args n) as [t' |] eqn:M.
  - injection K as <-. unfold arg_map in M.
    assert (P : forall t0, match last_name 0 args n with Some s => Some (TParam s) | None => None end = Some t0 ->
                teval (bind_params V (arg_names 0 args) vs) t0 = Some v).
    { intros t0 X. destruct (last_name 0 args n) as [s |] eqn:L; [| discriminate]. injection X as <-.
      destruct (bound_value args vs n s 0 ND FA L) as [f [w [E1 E2]]]. cbn [ExtModel.teval]. rewrite E2.
      f_equal. exact (eval_same _ _ _ _ _ E1 E). }
    cbn [ExtModel.eval] in E. destruct (g n) as [| k | b | o cs | f cs] eqn:G; try (apply P; exact M).
    destruct b; [| apply P; exact M]. injection M as <-. exact E.
  - assert (NI : ~ In n args).
    { intro I. apply (last_name_in args n 0) in I. destruct I as [s I]. unfold arg_map in M. rewrite I in M.
      destruct (g n) as [| | [] | |]; discriminate. }
    assert (LIST : forall cs ts ws, (forall c, In c cs -> covered g args c) -> mapM (copy m args) cs = Some ts -> mapM (eval m) cs = Some ws ->
                   mapM (teval (bind_params V (arg_names 0 args) vs)) ts = Some ws).
    { intros cs ts ws CC H1 H2. apply mapM_Forall2 in H1, H2. apply mapM_Forall2. revert ws H2 CC.
      induction H1 as [| c t0 cs ts X H1 IH1]; intros ws H2 CC; inversion H2; subst; constructor.
      - apply (IH c t0 y); [apply CC; left; reflexivity | exact X | assumption].
      - apply IH1; [assumption | intros d I; apply CC; right; exact I]. }
    cbn [ExtModel.eval] in E. destruct (g n) as [| k | b | o cs | f cs] eqn:G.
    + exfalso. apply (C n). apply r_here; assumption.
    + injection K as <-. exact E.
    + injection K as <-. exact E.
    + destruct (mapM (copy m args) cs) as [ts |] eqn:H1; [| discriminate]. injection K as <-.
      destruct (mapM (eval m) cs) as [ws |] eqn:H2; [| discriminate]. cbn [ExtModel.teval].
      rewrite (LIST cs ts ws); [exact E | | exact H1 | exact H2].
      intros c I w R. apply (C w). exact (r_op g args n o cs c w G NI I R).
    + destruct (mapM (copy m args) cs) as [ts |] eqn:H1; [| discriminate]. injection K as <-.
      destruct (mapM (eval m) cs) as [ws |] eqn:H2; [| discriminate]. cbn [ExtModel.teval].
      rewrite (LIST cs ts ws); [exact E | | exact H1 | exact H2].
      intros c I w R. apply (C w). exact (r_call g args n f cs c w G NI I R).
Qed.
Lemma not_arg args n : ~ In n args -> g n <> Table true -> arg_map g tag default args n = None.
Proof.
  intros NI NT. unfold arg_map. destruct (last_name 0 args n) eqn:L.
  - exfalso. apply NI. apply (last_name_in args n 0). eexists. exact L.
  - destruct (g n) as [| | [] | |]; try reflexivity. contradiction.
Qed.
(* a variable of the caller that is reached makes the body meaningless *)
Lemma copy_free args env v n : reaches g args n v -> forall fuel t, copy fuel args n = Some t -> teval env t = None.
Proof.
  intro R. induction R as [n G NI | n o cs c v G NI I R IH | n f cs c v G NI I R IH]; intros fuel t K;
    (destruct fuel as [| m]; [discriminate |]; cbn [ExtModel.copy] in K;
     rewrite (not_arg args n NI ltac:(rewrite G; discriminate)), G in K).
  - injection K as <-. reflexivity.
  - destruct (mapM (copy m args) cs) as [ts |] eqn:H; [| discriminate]. injection K as <-. cbn [ExtModel.teval].
    rewrite (mapM_none _ (teval env) cs ts c H I); [reflexivity | intros b X; exact (IH m b X)].
  - destruct (mapM (copy m args) cs) as [ts |] eqn:H; [| discriminate]. injection K as <-. cbn [ExtModel.teval].
    rewrite (mapM_none _ (teval env) cs ts c H I); [reflexivity | intros b X; exact (IH m b X)].
Qed.
(* copying succeeds where evaluation does *)
Lemma copy_total args : forall fuel n v, eval fuel n = Some v -> exists t, copy fuel args n = Some t.
Proof.
  induction fuel as [| m IH]; intros n v E; [discriminate |]. cbn [ExtModel.copy ExtModel.eval] in *.
  destruct (arg_map g tag default args n); [eexists; reflexivity |].
  assert (LIST : forall cs ws, mapM (eval m) cs = Some ws -> exists ts, mapM (copy m args) cs = Some ts).
  { intros cs ws H. apply mapM_Forall2 in H. induction H as [| c w cs ws X H IH1]; [exists []; reflexivity |].
    destruct IH1 as [ts T]. destruct (IH c w X) as [t T1]. exists (t :: ts). rewrite mapM_cons, T1, T. reflexivity. }
  destruct (g n); try (eexists; reflexivity).
  - destruct (mapM (eval m) cs) as [ws |] eqn:H; [| discriminate]. destruct (LIST cs ws H) as [ts T]. rewrite T. eexists. reflexivity.
  - destruct (mapM (eval m) cs) as [ws |] eqn:H; [| discriminate]. destruct (LIST cs ws H) as [ts T]. rewrite T. eexists. reflexivity.
Qed.
End Args.
End Values.
