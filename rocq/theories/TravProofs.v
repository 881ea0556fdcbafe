(* Proofs about traversals. *)
From Coq Require Import List Arith Bool Lia.
From Verif Require Import TravModel TravSpec.
Import ListNotations.

Lemma mem_iff : forall n l, mem n l = true <-> In n l.
Proof. intros n l. unfold mem. rewrite existsb_exists. split; [intros (x & H & E); apply Nat.eqb_eq in E; now subst|intro H; exists n; split; [exact H|apply Nat.eqb_refl]]. Qed.
Lemma reach_trans : forall ch a b c, reach ch a b -> reach ch b c -> reach ch a c.
Proof. intros ch a b c H1 H2. induction H2; [exact H1|eapply reach_step; eassumption]. Qed.
Lemma reach_child : forall ch a b c, In b (ch a) -> reach ch b c -> reach ch a c.
Proof. intros ch a b c H1 H2. eapply reach_trans; [eapply reach_step; [apply reach_self|exact H1]|exact H2]. Qed.
Lemma reach_le : forall ch, acyclic ch -> forall a b, reach ch a b -> b <= a.
Proof. intros ch AC a b H. induction H as [|m c H IH Hc]; [lia|]. specialize (AC m c Hc). lia. Qed.
Lemma reach_inv : forall ch a b, reach ch a b -> b = a \/ exists c, In c (ch a) /\ reach ch c b.
Proof.
  intros ch a b H. induction H as [|m c H IH Hc]; [now left|]. right. destruct IH as [->|(d & Hd & R)]; [exists c; split; [exact Hc|apply reach_self]|]. exists d. split; [exact Hd|eapply reach_step; eassumption].
Qed.
(* a set holding n and closed holds all reachable nodes *)
Lemma reach_closed : forall ch (P : nat -> Prop) n, P n -> (forall m c, P m -> In c (ch m) -> P c) -> forall m, reach ch n m -> P m.
Proof. intros ch P n H0 H m R. induction R; eauto. Qed.

Section Traverse.
Variable children : nat -> list nat.
Hypothesis AC : acyclic children.
Variable state : Type.
Variable act : nat -> state -> option state.
Variable early : bool.
Notation traverse := (traverse children state act early).
Definition loop (f : nat -> list nat -> state -> option (list nat * state)) := fix inputs (cs : list nat) (memo : list nat) (s : state) : option (list nat * state) :=
  match cs with [] => Some (memo, s) | c :: t => match f c memo s with Some (memo', s') => inputs t memo' s' | None => None end end.
Lemma traverse_S : forall m n memo s, traverse (S m) n memo s = if mem n memo then Some (memo, s) else
  match loop (traverse m) (children n) (if early then n :: memo else memo) s with None => None | Some (memo2, s2) => match act n s2 with None => None | Some s3 => Some (if early then memo2 else n :: memo2, s3) end end.
Proof. reflexivity. Qed.
Fixpoint fold_act (l : list nat) (s : state) : option state := match l with [] => Some s | x :: t => match act x s with None => None | Some s' => fold_act t s' end end.
Lemma fold_act_app : forall a b s, fold_act (a ++ b) s = match fold_act a s with None => None | Some s' => fold_act b s' end.
Proof. induction a as [|x a IH]; intros b s; [reflexivity|]. cbn. destruct (act x s); [apply IH|reflexivity]. Qed.
(* the run is a fold over the new nodes *)
Definition good (start : nat -> Prop) (memo memo' new : list nat) : Prop :=
  (forall x, In x memo' <-> In x memo \/ In x new) /\ NoDup new /\ (forall x, In x new -> ~ In x memo) /\ (forall x, In x new -> exists c, start c /\ reach children c x)
  /\ (forall c, start c -> In c memo') /\ (forall x c, In x new -> In c (children x) -> In c memo').
Definition fold_is (r : state -> option (list nat * state)) (memo' new : list nat) : Prop := forall s, r s = match fold_act new s with None => None | Some s' => Some (memo', s') end.
Lemma NoDup_app' : forall (a b : list nat), NoDup a -> NoDup b -> (forall x, In x b -> ~ In x a) -> NoDup (a ++ b).
Proof. induction a as [|x a IH]; intros b NA NB D; [exact NB|]. inversion_clear NA. cbn. constructor; [rewrite in_app_iff; intros [X|X]; [contradiction|apply (D x X); now left]|]. apply IH; auto. intros y Hy X. apply (D y Hy). now right. Qed.
Lemma good_nil : forall (start : nat -> Prop) memo, (forall c, start c -> In c memo) -> good start memo memo [].
Proof.
  intros start memo H. split; [intro x; split; [now left|intros [X|[]]; exact X]|]. split; [constructor|]. split; [intros x []|]. split; [intros x []|]. split; [exact H|intros x c []].
Qed.
Lemma traverse_good : forall fuel n memo, n < fuel -> exists memo' new, fold_is (traverse fuel n memo) memo' new /\ good (fun c => c = n) memo memo' new.
Proof.
  induction fuel as [|m IH]; intros n memo L; [lia|].
  destruct (mem n memo) eqn:M.
  - exists memo, []. split; [intro s; rewrite traverse_S, M; reflexivity|]. apply good_nil. intros c ->. now apply mem_iff.
  - assert (NM : ~ In n memo) by (intro X; apply mem_iff in X; congruence).
    assert (LP : forall cs memo, (forall c, In c cs -> c < m) -> exists memo' new, fold_is (loop (traverse m) cs memo) memo' new /\ good (fun c => In c cs) memo memo' new).
    { induction cs as [|c cs IHc]; intros mm LC.
      - exists mm, []. split; [intro s; reflexivity|]. apply good_nil. intros c [].
      - destruct (IH c mm (LC c (or_introl eq_refl))) as (m1 & n1 & F1 & (A1 & B1 & C1 & D1 & E1 & G1)). destruct (IHc m1 (fun d Hd => LC d (or_intror Hd))) as (m2 & n2 & F2 & (A2 & B2 & C2 & D2 & E2 & G2)). exists m2, (n1 ++ n2). split.
        + intro s. cbn [loop]. rewrite F1, fold_act_app. destruct (fold_act n1 s); [apply F2|reflexivity].
        + repeat split.
          * intro X. apply A2 in X. rewrite A1 in X. rewrite in_app_iff. tauto.
          * rewrite in_app_iff. intro X. apply A2. rewrite A1. tauto.
          * apply NoDup_app'; auto. intros x Hx X. apply (C2 x Hx). apply A1. now right.
          * intros x Hx X. apply in_app_iff in Hx. destruct Hx as [Hx|Hx]; [exact (C1 x Hx X)|]. apply (C2 x Hx). apply A1. now left.
          * intros x Hx. apply in_app_iff in Hx. destruct Hx as [Hx|Hx]; [destruct (D1 x Hx) as (d & -> & R); exists c; split; [now left|exact R]|destruct (D2 x Hx) as (d & Hd & R); exists d; split; [now right|exact R]].
          * intros d [<-|Hd]; [apply A2; left; apply E1; reflexivity|apply E2; exact Hd].
          * intros x d Hx Hd. apply in_app_iff in Hx. destruct Hx as [Hx|Hx]; [apply A2; left; eapply G1; eassumption|eapply G2; eassumption]. }
    destruct (LP (children n) (if early then n :: memo else memo)) as (m2 & n2 & F2 & (A2 & B2 & C2 & D2 & E2 & G2)); [intros c Hc; specialize (AC n c Hc); lia|].
    assert (NN : ~ In n n2) by (intro X; destruct (D2 n X) as (c & Hc & R); pose proof (AC n c Hc); pose proof (reach_le _ AC _ _ R); lia).
    exists (if early then m2 else n :: m2), (n2 ++ [n]). split.
    + intro s. rewrite traverse_S, M, F2, fold_act_app. destruct (fold_act n2 s); [|reflexivity]. cbn. destruct (act n s0); reflexivity.
    + assert (ME : forall x, In x (if early then m2 else n :: m2) <-> x = n \/ In x memo \/ In x n2).
      { intro x. destruct early; cbn [In]; rewrite A2; cbn [In]; split; intro X; intuition (subst; auto). }
      repeat split.
      * intro X. apply ME in X. rewrite in_app_iff. cbn. intuition auto.
      * intro X. apply ME. rewrite in_app_iff in X. cbn in X. intuition auto.
      * apply NoDup_app'; auto; [constructor; [intros []|constructor]|]. intros x [<-|[]]. exact NN.
      * intros x Hx X. apply in_app_iff in Hx. destruct Hx as [Hx|[<-|[]]]; [|exact (NM X)]. apply (C2 x Hx). destruct early; [now right|exact X].
      * intros x Hx. exists n. split; [reflexivity|]. apply in_app_iff in Hx. destruct Hx as [Hx|[<-|[]]]; [|apply reach_self]. destruct (D2 x Hx) as (c & Hc & R). eapply reach_child; eassumption.
      * intros c ->. apply ME. now left.
      * intros x c Hx Hc. apply in_app_iff in Hx. assert (Y : In c m2) by (destruct Hx as [Hx|[<-|[]]]; [eapply G2; eassumption|apply E2; exact Hc]). destruct early; [exact Y|now right].
Qed.
Lemma loop_good : forall m cs memo, (forall c, In c cs -> c < m) -> exists memo' new, fold_is (loop (traverse m) cs memo) memo' new /\ good (fun c => In c cs) memo memo' new.
Proof.
  intros m. induction cs as [|c cs IHc]; intros mm LC.
  - exists mm, []. split; [intro s; reflexivity|]. apply good_nil. intros c [].
  - destruct (traverse_good m c mm (LC c (or_introl eq_refl))) as (m1 & n1 & F1 & (A1 & B1 & C1 & D1 & E1 & G1)). destruct (IHc m1 (fun d Hd => LC d (or_intror Hd))) as (m2 & n2 & F2 & (A2 & B2 & C2 & D2 & E2 & G2)). exists m2, (n1 ++ n2). split.
    + intro s. cbn [loop]. rewrite F1, fold_act_app. destruct (fold_act n1 s); [apply F2|reflexivity].
    + repeat split.
      * intro X. apply A2 in X. rewrite A1 in X. rewrite in_app_iff. tauto.
      * rewrite in_app_iff. intro X. apply A2. rewrite A1. tauto.
      * apply NoDup_app'; auto. intros x Hx X. apply (C2 x Hx). apply A1. now right.
      * intros x Hx X. apply in_app_iff in Hx. destruct Hx as [Hx|Hx]; [exact (C1 x Hx X)|]. apply (C2 x Hx). apply A1. now left.
      * intros x Hx. apply in_app_iff in Hx. destruct Hx as [Hx|Hx]; [destruct (D1 x Hx) as (d & -> & R); exists c; split; [now left|exact R]|destruct (D2 x Hx) as (d & Hd & R); exists d; split; [now right|exact R]].
      * intros d [<-|Hd]; [apply A2; left; apply E1; reflexivity|apply E2; exact Hd].
      * intros x d Hx Hd. apply in_app_iff in Hx. destruct Hx as [Hx|Hx]; [apply A2; left; eapply G1; eassumption|eapply G2; eassumption].
Qed.
(* from an empty map: all reachable nodes, once *)
Lemma good_fresh : forall start memo' new, good start [] memo' new -> NoDup new /\ (forall x, In x new <-> exists c, start c /\ reach children c x).
Proof.
  intros start memo' new (A & B & C & D & E & G). split; [exact B|]. assert (MN : forall x, In x memo' -> In x new) by (intros x X; apply A in X; destruct X as [[]|X]; exact X). intro x. split; [apply D|]. intros (c & Hc & R). apply MN. revert x R. apply (reach_closed children (fun x => In x memo') c); [now apply E|]. intros y d Hy Hd. eapply G; [apply MN; exact Hy|exact Hd].
Qed.
Lemma traverse_fresh : forall n, exists memo' new, fold_is (traverse (S n) n []) memo' new /\ NoDup new /\ forall x, In x new <-> reach children n x.
Proof.
  intro n. destruct (traverse_good (S n) n [] (Nat.lt_succ_diag_r n)) as (memo' & new & F & G). destruct (good_fresh _ _ _ G) as [ND R]. exists memo', new. split; [exact F|]. split; [exact ND|]. intro x. rewrite R. split; [intros (c & -> & X); exact X|intro X; exists n; split; [reflexivity|exact X]].
Qed.
End Traverse.

(* ---- Pass_CheckGeneric ---- *)
Section Generic.
Variable children : nat -> list nat.
Hypothesis AC : acyclic children.
Variable check : nat -> bool.
Notation execute := (execute children check).
Definition gloop (f : nat -> list (nat * bool) -> list (nat * bool) * bool) := fix inputs (cs : list nat) (memo : list (nat * bool)) (r : bool) : list (nat * bool) * bool :=
  match cs with [] => (memo, r) | c :: t => let '(memo', b) := f c memo in inputs t memo' (r && b) end.
Lemma execute_S : forall m n memo, execute (S m) n memo = match lookup n memo with Some b => (memo, b) | None => gloop (execute m) (children n) ((n, check n) :: memo) (check n) end.
Proof. reflexivity. Qed.
Definition gok (memo : list (nat * bool)) : Prop := forall n b, lookup n memo = Some b -> b = check n.
Definition dom {V : Type} (memo : list (nat * V)) (n : nat) : Prop := lookup n memo <> None.
Lemma lookup_cons : forall (V : Type) n m (v : V) l, lookup n ((m, v) :: l) = if Nat.eqb n m then Some v else lookup n l.
Proof. intros. unfold lookup. cbn [find fst]. destruct (Nat.eqb n m); reflexivity. Qed.
Lemma dom_cons : forall (V : Type) n m (v : V) l, dom ((m, v) :: l) n <-> n = m \/ dom l n.
Proof. intros. unfold dom. rewrite lookup_cons. destruct (Nat.eqb_spec n m) as [->|NE]; split; intro H; auto; [discriminate|destruct H; [contradiction|assumption]]. Qed.
Lemma dom_dec : forall (V : Type) (l : list (nat * V)) n, dom l n \/ ~ dom l n.
Proof. intros V l n. unfold dom. destruct (lookup n l); [left; discriminate|right; intro H; now apply H]. Qed.
Definition nice (start : nat -> Prop) (memo memo' : list (nat * bool)) (b : bool) : Prop :=
  gok memo' /\ (forall x, dom memo x -> dom memo' x) /\ (forall x, start x -> dom memo' x) /\ (forall x, dom memo' x -> dom memo x \/ exists c, start c /\ reach children c x) /\ (forall x c, dom memo' x -> ~ dom memo x -> In c (children x) -> dom memo' c)
  /\ (b = true <-> (forall c, start c -> check c = true) /\ forall x c, dom memo' x -> ~ dom memo x -> check x = true /\ (In c (children x) -> check c = true)).
Lemma execute_nice : forall fuel n memo, n < fuel -> gok memo -> nice (fun c => c = n) memo (fst (execute fuel n memo)) (snd (execute fuel n memo)).
Proof.
  induction fuel as [|m IH]; intros n memo L OK; [lia|]. rewrite execute_S. destruct (lookup n memo) as [b|] eqn:M.
  - cbn [fst snd]. pose proof (OK n b M) as E. subst b. split; [exact OK|]. split; [auto|]. split; [intros x ->; unfold dom; now rewrite M|]. split; [now left|]. split; [intros x c H1 H2; contradiction|]. split; [intro E; split; [intros c ->; exact E|intros x c H1 H2; contradiction]|intros [E _]; now apply E].
  - assert (LP : forall cs memo r, (forall c, In c cs -> c < m) -> gok memo -> exists b, snd (gloop (execute m) cs memo r) = r && b /\ nice (fun c => In c cs) memo (fst (gloop (execute m) cs memo r)) b).
    { clear n memo L OK M. induction cs as [|c cs IHc]; intros memo r LC OK.
      - exists true. cbn [gloop fst snd]. split; [now rewrite andb_true_r|]. split; [exact OK|]. split; [auto|]. split; [intros x []|]. split; [now left|]. split; [intros x c H1 H2; contradiction|]. split; [intros _; split; [intros c []|intros x c H1 H2; contradiction]|reflexivity].
      - cbn [gloop]. destruct (execute m c memo) as [m1 b1] eqn:E1. pose proof (IH c memo (LC c (or_introl eq_refl)) OK) as N1. rewrite E1 in N1. cbn [fst snd] in N1. destruct N1 as (A1 & B1 & C1 & D1 & G1 & H1).
        destruct (IHc m1 (r && b1) (fun d Hd => LC d (or_intror Hd)) A1) as (b2 & E2 & (A2 & B2 & C2 & D2 & G2 & H2)). exists (b1 && b2). rewrite E2, andb_assoc. split; [reflexivity|]. remember (fst (gloop (execute m) cs m1 (r && b1))) as m2 eqn:X2. clear X2 E2.
        split; [exact A2|]. split; [auto|]. split; [intros x [<-|Hx]; [apply B2; apply C1; reflexivity|apply C2; exact Hx]|]. split.
        { intros x Hx. destruct (D2 x Hx) as [Y|(d & Hd & R)]; [destruct (D1 x Y) as [Z1|(d & -> & R)]; [now left|right; exists c; split; [now left|exact R]]|right; exists d; split; [now right|exact R]]. }
        split.
        { intros x d Hx NX Hd. destruct (dom_dec _ m1 x) as [Y|Y]; [apply B2; eapply G1; eassumption|eapply G2; eassumption]. }
        rewrite andb_true_iff, H1, H2. split.
        + intros [[P1 P2] [Q1 Q2]]. split; [intros d [<-|Hd]; [apply P1; reflexivity|apply Q1; exact Hd]|]. intros x d Hx NX. destruct (dom_dec _ m1 x) as [Y|Y]; [apply P2; assumption|apply Q2; assumption].
        + intros [P Q]. split; split.
          * intros d ->. apply P. now left.
          * intros x d Hx NX. apply Q; [apply B2; exact Hx|exact NX].
          * intros d Hd. apply P. now right.
          * intros x d Hx NX. apply Q; [exact Hx|]. intro Y. apply NX. apply B1. exact Y. }
    assert (OK' : gok ((n, check n) :: memo)) by (intros x b; rewrite lookup_cons; destruct (Nat.eqb_spec x n) as [->|NE]; [intro H; now injection H as <-|apply OK]).
    assert (NM : ~ dom memo n) by (unfold dom; rewrite M; intro H; now apply H).
    destruct (LP (children n) ((n, check n) :: memo) (check n)) as (b & E & (A & B & C & D & G & H)); [intros c Hc; specialize (AC n c Hc); lia|exact OK'|]. rewrite E. remember (fst (gloop (execute m) (children n) ((n, check n) :: memo) (check n))) as m2 eqn:X2. clear X2 E.
    split; [exact A|]. split; [intros x Hx; apply B; apply dom_cons; now right|]. split; [intros x ->; apply B; apply dom_cons; now left|]. split.
    { intros x Hx. destruct (D x Hx) as [Y|(c & Hc & R)]; [apply dom_cons in Y; destruct Y as [->|Y]; [right; exists n; split; [reflexivity|apply reach_self]|now left]|]. right. exists n. split; [reflexivity|eapply reach_child; eassumption]. }
    split.
    { intros x c Hx NX Hc. destruct (Nat.eq_dec x n) as [->|NE]; [apply C; exact Hc|]. eapply G; [exact Hx| |exact Hc]. intro Y. apply dom_cons in Y. tauto. }
    rewrite andb_true_iff, H. split.
    + intros (P & Q & S1). split; [intros c ->; exact P|]. intros x c Hx NX. destruct (Nat.eq_dec x n) as [->|NE]; [split; [exact P|apply Q]|]. apply S1; [exact Hx|]. intro Y. apply dom_cons in Y. tauto.
    + intros (P & Q). split; [now apply P|]. assert (DN : dom m2 n) by (apply B; apply dom_cons; now left). split; [intros c Hc; apply (Q n c DN NM); exact Hc|]. intros x c Hx NX. apply Q; [exact Hx|]. intro Y. apply NX. apply dom_cons. now right.
Qed.
Lemma execute_fresh : forall n, gok (fst (execute (S n) n [])) /\ (forall x, dom (fst (execute (S n) n [])) x <-> reach children n x) /\ (snd (execute (S n) n []) = true <-> forall x, reach children n x -> check x = true).
Proof.
  intro n. assert (NO : forall x, ~ dom (V := bool) [] x) by (intros x H; now apply H). destruct (execute_nice (S n) n [] (Nat.lt_succ_diag_r n)) as (A & B & C & D & G & H); [intros x b X; discriminate X|].
  assert (R : forall x, dom (fst (execute (S n) n [])) x <-> reach children n x).
  { intro x. split; [intro X; destruct (D x X) as [Y|(c & -> & R)]; [destruct (NO x Y)|exact R]|]. revert x. apply reach_closed; [now apply C|]. intros y c Hy Hc. eapply G; eauto. }
  split; [exact A|]. split; [exact R|]. rewrite H. split; [intros [P Q] x X; apply (Q x n); [now apply R|apply NO]|]. intro P. split; [intros c ->; apply P; apply reach_self|]. intros x c Hx _. split; [apply P; now apply R|]. intro Hc. apply P. eapply reach_step; [apply R; exact Hx|exact Hc].
Qed.
End Generic.

(* ---- evaluation ---- *)
Section Eval.
Variable V : Type.
Variable kind : nat -> ekind V.
Variable input_mapping : list (nat * V).
Notation ins := (ins V kind).
Hypothesis AC : acyclic ins.
Notation evaluate := (evaluate V kind input_mapping).
Notation known := (fun n => lookup n input_mapping).
Notation value := (value V kind known).
Notation unmapped := (unmapped V input_mapping).
Definition aloop (f : nat -> list (nat * V) -> option (list (nat * V) * V)) := fix args (cs : list nat) (memo : list (nat * V)) : option (list (nat * V) * list V) :=
  match cs with [] => Some (memo, []) | c :: t => match f c memo with None => None | Some (memo', v) => match args t memo' with None => None | Some (memo'', vs) => Some (memo'', v :: vs) end end end.
Lemma evaluate_S : forall m n memo, evaluate (S m) n memo = match lookup n memo with Some v => Some (memo, v) | None => match lookup n input_mapping with Some v => Some ((n, v) :: memo, v) | None => match kind n with
  | KConst _ v => Some ((n, v) :: memo, v)
  | KCast _ f c => match evaluate m c memo with None => None | Some (memo', v) => Some ((n, f v) :: memo', f v) end
  | KOp _ f cs => match aloop (evaluate m) cs memo with None => None | Some (memo', vs) => Some ((n, f vs) :: memo', f vs) end end end end.
Proof. reflexivity. Qed.
Definition eok (memo : list (nat * V)) : Prop := forall n v, lookup n memo = Some v -> value n v.
Definition closed (memo : list (nat * V)) : Prop := forall x c, dom memo x -> unmapped x = true -> In c (ins x) -> dom memo c.
Lemma eok_cons : forall n v memo, eok memo -> value n v -> eok ((n, v) :: memo).
Proof. intros n v memo OK H x w. rewrite lookup_cons. destruct (Nat.eqb_spec x n) as [->|NE]; [intro E; now injection E as <-|apply OK]. Qed.
Lemma closed_cons : forall n v memo, closed memo -> (unmapped n = true -> forall c, In c (ins n) -> dom memo c) -> closed ((n, v) :: memo).
Proof. intros n v memo C H x c Hx U Hc. apply dom_cons. right. apply dom_cons in Hx. destruct Hx as [->|Hx]; [now apply H|now apply (C x c)]. Qed.
Lemma evaluate_ok : forall fuel n memo, n < fuel -> eok memo -> closed memo -> exists memo' v, evaluate fuel n memo = Some (memo', v) /\ eok memo' /\ closed memo' /\ value n v /\ dom memo' n /\ (forall x, dom memo x -> dom memo' x).
Proof.
  induction fuel as [|m IH]; intros n memo L OK CL; [lia|]. rewrite evaluate_S. destruct (lookup n memo) as [v|] eqn:M; [exists memo, v; repeat split; auto; unfold dom; now rewrite M|].
  destruct (lookup n input_mapping) as [v|] eqn:I.
  - exists ((n, v) :: memo), v. assert (VN : value n v) by now apply value_known. split; [reflexivity|]. split; [now apply eok_cons|]. split; [apply closed_cons; auto; unfold TravModel.unmapped; rewrite I; discriminate|]. split; [exact VN|]. split; [apply dom_cons; now left|intros x Hx; apply dom_cons; now right].
  - assert (LI : forall c, In c (ins n) -> c < m) by (intros c Hc; specialize (AC n c Hc); lia). unfold TravModel.ins in LI. destruct (kind n) as [v|f c|f cs] eqn:K.
    + exists ((n, v) :: memo), v. assert (VN : value n v) by (now apply value_const). split; [reflexivity|]. split; [now apply eok_cons|]. split; [apply closed_cons; auto; intros _ c; unfold TravModel.ins; rewrite K; intros []|]. split; [exact VN|]. split; [apply dom_cons; now left|intros x Hx; apply dom_cons; now right].
    + destruct (IH c memo (LI c (or_introl eq_refl)) OK CL) as (m1 & v & E & O1 & C1 & V1 & D1 & S1). rewrite E. exists ((n, f v) :: m1), (f v). assert (VN : value n (f v)) by (eapply value_cast; eauto). split; [reflexivity|]. split; [now apply eok_cons|]. split; [apply closed_cons; auto; intros _ d; unfold TravModel.ins; rewrite K; intros [<-|[]]; exact D1|]. split; [exact VN|]. split; [apply dom_cons; now left|intros x Hx; apply dom_cons; right; auto].
    + assert (LP : forall cs memo, (forall c, In c cs -> c < m) -> eok memo -> closed memo -> exists memo' vs, aloop (evaluate m) cs memo = Some (memo', vs) /\ eok memo' /\ closed memo' /\ Forall2 value cs vs /\ (forall c, In c cs -> dom memo' c) /\ (forall x, dom memo x -> dom memo' x)).
      { clear - IH. induction cs as [|c cs IHc]; intros memo LC OK CL; [exists memo, []; repeat split; auto; intros c []|]. cbn [aloop]. destruct (IH c memo (LC c (or_introl eq_refl)) OK CL) as (m1 & v & E & O1 & C1 & V1 & D1 & S1). rewrite E.
        destruct (IHc m1 (fun d Hd => LC d (or_intror Hd)) O1 C1) as (m2 & vs & E2 & O2 & C2 & V2 & D2 & S2). rewrite E2. exists m2, (v :: vs). repeat split; auto. intros d [<-|Hd]; auto. }
      destruct (LP cs memo LI OK CL) as (m1 & vs & E & O1 & C1 & V1 & D1 & S1). rewrite E. exists ((n, f vs) :: m1), (f vs). assert (VN : value n (f vs)) by (eapply value_op; eauto). split; [reflexivity|]. split; [now apply eok_cons|]. split; [apply closed_cons; auto; intros _ d; unfold TravModel.ins; rewrite K; apply D1|]. split; [exact VN|]. split; [apply dom_cons; now left|intros x Hx; apply dom_cons; right; auto].
Qed.
Lemma trav_value_unique : forall n v w, value n v -> value n w -> v = w.
Proof.
  induction n as [n IH] using lt_wf_ind. intros v w HV HW. pose proof (AC n) as LI. unfold TravModel.ins in LI. inversion HV as [? ? K1|? ? K1 E1|? f1 c1 v1 K1 E1 X1|? f1 cs1 vs1 K1 E1 X1]; inversion HW as [? ? K2|? ? K2 E2|? f2 c2 v2 K2 E2 X2|? f2 cs2 vs2 K2 E2 X2]; subst; try congruence; rewrite E1 in E2; try discriminate E2; rewrite E1 in LI; injection E2; intros; subst.
  - f_equal. apply (IH c2); auto. apply LI. now left.
  - f_equal. clear - IH LI X1 X2. revert vs2 X2. induction X1 as [|c v cs vs H X1 IHX]; intros vs2 X2; inversion X2; subst; [reflexivity|]. f_equal; [apply (IH c); auto; apply LI; now left|]. apply IHX; auto. intros d Hd. apply LI. now right.
Qed.
End Eval.
