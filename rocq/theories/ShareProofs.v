(* Proofs about sharing of sub-expressions. *)
From Coq Require Import List Arith Bool Lia.
From Verif Require Import ShareModel ShareSpec.
Import ListNotations.

Lemma mem_in : forall x l, mem x l = true -> In x l.
Proof. intros x l H. unfold mem in H. apply existsb_exists in H. destruct H as (y & A & B). apply Nat.eqb_eq in B. now subst. Qed.
Lemma common_in : forall p0 p1 b, common_ancestor p0 p1 = Some b -> In b p0 /\ In b p1.
Proof. intros p0 p1 b H. unfold common_ancestor in H. apply find_some in H. destruct H as [A B]. split; [exact A|apply mem_in; exact B]. Qed.
Lemma reach_trans : forall h i j k, reach h i j -> reach h j k -> reach h i k.
Proof. intros h i j k H. induction H as [|i nd c j N C R IH]; intro G; [exact G|]. eapply reach_step; [exact N|exact C|apply IH; exact G]. Qed.
Lemma reach_child : forall h i nd c, nth_error h i = Some nd -> In c (children nd) -> reach h i c.
Proof. intros h i nd c N C. eapply reach_step; [exact N|exact C|apply reach_refl]. Qed.
Lemma reach_rank : forall h rk i j, ranked h rk -> reach h i j -> i = j \/ rk j < rk i.
Proof. intros h rk i j R H. induction H as [|i nd c j N C H IH]; [now left|right]. pose proof (R i nd c N C). destruct IH as [->|IH]; lia. Qed.

Lemma dep_spec : forall h rk, ranked h rk -> forall n i, rk i < n -> contains_non_input_variable n h i = true <-> uses_variable h i.
Proof.
  intros h rk R. induction n as [|n IH]; intros i L; [lia|]. cbn [contains_non_input_variable]. destruct (nth_error h i) as [nd|] eqn:N.
  2:{ split; [discriminate|]. intro U. inversion U; congruence. }
  assert (E : (forall v, n_kind nd <> KLeaf v) -> existsb (contains_non_input_variable n h) (n_inputs nd) = true <-> uses_variable h i).
  { intro K. rewrite existsb_exists. split.
    - intros (c & Ic & Hc). eapply uv_step; [exact N|exact K|exact Ic|]. apply IH; [|exact Hc]. pose proof (R i nd c N (in_or_app _ _ _ (or_introl Ic))). lia.
    - intro U. inversion U as [i' nd' N' K'|i' nd' c N' K' Ic Uc]; subst; rewrite N in N'; injection N' as <-; [exfalso; exact (K true K')|].
      exists c. split; [exact Ic|]. apply IH; [|exact Uc]. pose proof (R i nd c N (in_or_app _ _ _ (or_introl Ic))). lia. }
  destruct (n_kind nd) eqn:K; try (apply E; intros v0 X; discriminate X).
  split; [intros ->; eapply uv_leaf; eassumption|]. intro U. inversion U as [i' nd' N' K'|i' nd' c N' K' Ic Uc]; subst; rewrite N in N'; injection N' as <-; [congruence|exfalso; exact (K' _ K)].
Qed.

Section Look.
Variable h : heap.
Variable rk : nat -> nat.
Hypothesis R : ranked h rk.

Definition hoistable (i : nat) : Prop := movable h i /\ ~ uses_variable h i.
Record inv (s : state) : Prop := mkinv {
  inv_share : forall i pl, assoc (sharing s) i = Some pl -> hoistable i /\ forall p, In p pl -> reach h p i /\ is_block h p;
  inv_anc : forall b i, In (b, i) (ancestors s) -> is_block h b /\ reach h b i /\ hoistable i }.

Lemma fold_inv : forall (f : state -> nat -> state) l s, (forall s j, In j l -> inv s -> inv (f s j)) -> inv s -> inv (fold_left f l s).
Proof. intros f l. induction l as [|j l IH]; intros s H I; [exact I|]. cbn [fold_left]. apply IH; [intros; apply H; [now right|assumption]|apply H; [now left|exact I]]. Qed.

Lemma look_inv : forall n root parents s i, rk i < n -> (forall p, In p parents -> reach h p i /\ is_block h p) -> inv s -> inv (look n h root parents s i).
Proof.
  induction n as [|n IH]; intros root parents s i L P I; [exact I|]. cbn [look]. destruct (nth_error h i) as [nd|] eqn:N; [|exact I].
  assert (SUB : forall c, In c (children nd) -> rk c < n) by (intros c Hc; pose proof (R i nd c N Hc); lia).
  assert (PAR : forall c, In c (children nd) -> forall p, In p parents -> reach h p c /\ is_block h p).
  { intros c Hc p Hp. destruct (P p Hp) as [A B]. split; [eapply reach_trans; [exact A|eapply reach_child; eassumption]|exact B]. }
  assert (PARB : is_block h i -> forall c, In c (children nd) -> forall p, In p (i :: parents) -> reach h p c /\ is_block h p).
  { intros BK c Hc p [<-|Hp]; [split; [eapply reach_child; eassumption|exact BK]|apply PAR; assumption]. }
  assert (OP : movable h i -> inv (match assoc (sharing s) i with
        | Some pl => if search_level_map s i then s else match common_ancestor pl parents with Some b => mkS (sharing s) (root_level s) (ancestors s ++ [(b, i)]) | None => s end
        | None => if contains_non_input_variable (S n) h i then s
          else fold_left (look n h root parents) (n_inputs nd) (mkS ((i, parents) :: sharing s) (if root then i :: root_level s else root_level s) (ancestors s)) end)).
  { intro MV. destruct (assoc (sharing s) i) as [pl|] eqn:A.
    - destruct (search_level_map s i); [exact I|]. destruct (common_ancestor pl parents) as [b|] eqn:C; [|exact I].
      destruct (common_in _ _ _ C) as [C0 C1]. destruct (inv_share s I i pl A) as [HO HP]. constructor; cbn [sharing ancestors].
      + exact (inv_share s I).
      + intros b' i' H. apply in_app_or in H. destruct H as [H|[H|[]]]; [exact (inv_anc s I b' i' H)|]. injection H as <- <-.
        destruct (P b C1) as [X Y]. split; [exact Y|]. split; [exact X|exact HO].
    - destruct (contains_non_input_variable (S n) h i) eqn:D; [exact I|].
      assert (NU : ~ uses_variable h i) by (intro U; apply (dep_spec h rk R (S n) i L) in U; congruence).
      apply fold_inv.
      + intros s' j Hj I'. apply IH; [apply SUB; apply in_or_app; now left|apply PAR; apply in_or_app; now left|exact I'].
      + constructor; cbn [sharing ancestors]; [|exact (inv_anc s I)]. intros i' pl. cbn [assoc]. destruct (Nat.eqb_spec i i') as [<-|X].
        * intro E. injection E as <-. split; [split; [exact MV|exact NU]|exact P].
        * exact (inv_share s I i' pl). }
  destruct (n_kind nd) as [v|c| | | |pv|] eqn:K; try exact I.
  - apply OP. exists nd. split; [exact N|right; exists c; exact K].
  - apply OP. exists nd. split; [exact N|left; exact K].
  - destruct (n_inputs nd) as [|c bs] eqn:E; [exact I|]. assert (BK : is_block h i) by (exists nd; split; [exact N|left; exact K]).
    assert (CH : forall j, In j (c :: bs) -> In j (children nd)) by (intros j Hj; apply in_or_app; left; rewrite E; exact Hj).
    apply fold_inv; [intros s' j Hj I'; apply IH; [apply SUB; apply CH; now right|apply (PARB BK); apply CH; now right|exact I']|].
    apply IH; [apply SUB; apply CH; now left|apply (PARB BK); apply CH; now left|exact I].
  - destruct (n_inputs nd) as [|c bs] eqn:E; [exact I|]. assert (BK : is_block h i) by (exists nd; split; [exact N|right; exact K]).
    apply fold_inv; [intros s' j Hj I'; apply IH; [apply SUB; apply in_or_app; now right|apply (PARB BK); apply in_or_app; now right|exact I']|].
    assert (Hc : In c (children nd)) by (apply in_or_app; left; rewrite E; now left).
    apply IH; [apply SUB; exact Hc|apply (PARB BK); exact Hc|exact I].
  - destruct pv; [exact I|]. apply fold_inv; [|exact I]. intros s' j Hj I'. apply IH; [apply SUB; apply in_or_app; now left|apply PAR; apply in_or_app; now left|exact I'].
Qed.

Lemma shared_ok : forall n root b i, rk root < n -> In (b, i) (shared_nodes n h root) -> is_block h b /\ reach h b i /\ hoistable i /\ rk i < rk b.
Proof.
  intros n root b i L H. assert (I0 : inv (mkS [] [] [])) by (constructor; [intros x pl E; discriminate E|intros x y []]).
  pose proof (look_inv n true [] (mkS [] [] []) root L (fun p (F : In p []) => match F with end) I0) as I.
  destruct (inv_anc _ I b i H) as (A & B & C). split; [exact A|]. split; [exact B|]. split; [exact C|].
  destruct (reach_rank h rk b i R B) as [->|X]; [|exact X]. exfalso. destruct A as (nd & N & K). destruct C as [(nd' & N' & K') _]. rewrite N in N'. injection N' as <-.
  destruct K as [K|K]; rewrite K in K'; destruct K' as [K'|[c K']]; discriminate K'.
Qed.

(* operations the lookup goes through *)
Fixpoint visits (n i : nat) : list nat :=
  match n with
  | O => []
  | S m => match nth_error h i with
    | None => []
    | Some nd => match n_kind nd with
      | KCond => concat (map (visits m) (n_inputs nd))
      | KSwitch => match n_inputs nd with [] => [] | v :: _ => visits m v ++ concat (map (visits m) (n_cases nd)) end
      | KStmt p => if p then [] else concat (map (visits m) (n_inputs nd))
      | KLoop | KLeaf _ => []
      | KOp _ | KWhile => i :: concat (map (visits m) (n_inputs nd))
      end end
  end.
Definition keys (s : state) : list nat := map fst (sharing s).
Lemma assoc_keys : forall A (l : list (nat * A)) i x, assoc l i = Some x -> In i (map fst l).
Proof. intros A l i x. induction l as [|[k y] l IH]; cbn; [discriminate|]. destruct (Nat.eqb_spec k i) as [->|N]; [intros _; now left|intro H; right; apply IH; exact H]. Qed.

Lemma fold_once : forall (f : state -> nat -> state) (v : nat -> list nat) l s,
  (forall s j, In j l -> NoDup (v j) -> (forall k, In k (v j) -> ~ In k (keys s)) -> ancestors (f s j) = ancestors s /\ (forall k, In k (keys (f s j)) -> In k (keys s) \/ In k (v j))) ->
  NoDup (concat (map v l)) -> (forall k, In k (concat (map v l)) -> ~ In k (keys s)) ->
  ancestors (fold_left f l s) = ancestors s /\ (forall k, In k (keys (fold_left f l s)) -> In k (keys s) \/ In k (concat (map v l))).
Proof.
  intros f v l. induction l as [|j l IH]; intros s H ND D; [split; [reflexivity|intros k Hk; now left]|].
  cbn [map concat fold_left] in *. assert (N1 : NoDup (v j) /\ NoDup (concat (map v l)) /\ forall k, In k (v j) -> ~ In k (concat (map v l))).
  { clear - ND. induction (v j) as [|x t IHt]; [split; [constructor|split; [exact ND|intros k []]]|]. cbn in ND. inversion ND as [|? ? X Y]; subst. destruct (IHt Y) as (A & B & C).
    split; [constructor; [intro F; apply X; apply in_or_app; now left|exact A]|]. split; [exact B|]. intros k [<-|Hk]; [intro F; apply X; apply in_or_app; now right|apply C; exact Hk]. }
  destruct N1 as (N1 & N2 & N3).
  destruct (H s j (or_introl eq_refl) N1) as [A1 K1]; [intros k Hk; apply D; apply in_or_app; now left|].
  destruct (IH (f s j)) as [A2 K2].
  - intros s' q Hq. apply H. now right.
  - exact N2.
  - intros k Hk F. destruct (K1 k F) as [X|X]; [exact (D k (in_or_app _ _ _ (or_intror Hk)) X)|exact (N3 k X Hk)].
  - split; [congruence|]. intros k Hk. destruct (K2 k Hk) as [X|X]; [destruct (K1 k X) as [Y|Y]; [now left|right; apply in_or_app; now left]|right; apply in_or_app; now right].
Qed.

Lemma look_once : forall n root parents s i, NoDup (visits n i) -> (forall k, In k (visits n i) -> ~ In k (keys s)) ->
  ancestors (look n h root parents s i) = ancestors s /\ (forall k, In k (keys (look n h root parents s i)) -> In k (keys s) \/ In k (visits n i)).
Proof.
  induction n as [|n IH]; intros root parents s i ND D; [split; [reflexivity|now left]|]. cbn [look visits] in *.
  destruct (nth_error h i) as [nd|]; [|split; [reflexivity|now left]].
  assert (OP : NoDup (i :: concat (map (visits n) (n_inputs nd))) -> (forall k, In k (i :: concat (map (visits n) (n_inputs nd))) -> ~ In k (keys s)) ->
    let s' := (match assoc (sharing s) i with
        | Some pl => if search_level_map s i then s else match common_ancestor pl parents with Some b => mkS (sharing s) (root_level s) (ancestors s ++ [(b, i)]) | None => s end
        | None => if contains_non_input_variable (S n) h i then s
          else fold_left (look n h root parents) (n_inputs nd) (mkS ((i, parents) :: sharing s) (if root then i :: root_level s else root_level s) (ancestors s)) end) in
    ancestors s' = ancestors s /\ (forall k, In k (keys s') -> In k (keys s) \/ In k (i :: concat (map (visits n) (n_inputs nd))))).
  { intros ND' D'. cbn zeta. inversion ND' as [|? ? X Y]; subst. destruct (assoc (sharing s) i) as [pl|] eqn:A.
    - exfalso. apply (D' i (or_introl eq_refl)). eapply assoc_keys. exact A.
    - destruct (contains_non_input_variable (S n) h i); [split; [reflexivity|now left]|].
      destruct (fold_once (look n h root parents) (visits n) (n_inputs nd) (mkS ((i, parents) :: sharing s) (if root then i :: root_level s else root_level s) (ancestors s))) as [A1 K1].
      + intros s' j _ P Q. apply IH; assumption.
      + exact Y.
      + intros k Hk [<-|F]; [exact (X Hk)|exact (D' k (or_intror Hk) F)].
      + split; [exact A1|]. intros k Hk. destruct (K1 k Hk) as [[<-|F]|F]; [right; now left|now left|right; now right]. }
  destruct (n_kind nd) as [v|c| | | |pv|] eqn:K; try (split; [reflexivity|now left]); try (apply OP; assumption).
  - destruct (n_inputs nd) as [|c bs] eqn:E; [split; [reflexivity|now left]|].
    cbn [map concat] in ND, D.
    destruct (fold_once (fun s j => look n h (if Nat.eqb j j then root else root) (i :: parents) s j) (visits n) [c] s) as [A1 K1].
    + intros s' j _ P Q. rewrite Nat.eqb_refl. apply IH; assumption.
    + cbn [map concat]. rewrite app_nil_r. clear - ND. induction (visits n c) as [|x t IHt]; [constructor|]. cbn in ND. inversion ND as [|? ? X Y]; subst. constructor; [intro F; apply X; apply in_or_app; now left|apply IHt; exact Y].
    + cbn [map concat]. rewrite app_nil_r. intros k Hk. apply D. apply in_or_app. now left.
    + cbn [fold_left map concat] in A1, K1. rewrite Nat.eqb_refl, app_nil_r in *.
      destruct (fold_once (look n h false (i :: parents)) (visits n) bs (look n h root (i :: parents) s c)) as [A2 K2].
      * intros s' j _ P Q. apply IH; assumption.
      * clear - ND. induction (visits n c) as [|x t IHt]; [exact ND|]. cbn in ND. inversion ND; subst. apply IHt. assumption.
      * intros k Hk F. destruct (K1 k F) as [X|X]; [exact (D k (in_or_app _ _ _ (or_intror Hk)) X)|].
        clear - ND X Hk. induction (visits n c) as [|x t IHt]; [destruct X|]. cbn in ND. inversion ND as [|? ? U W]; subst. destruct X as [<-|X]; [apply U; apply in_or_app; now right|apply IHt; assumption].
      * split; [congruence|]. intros k Hk. cbn [map concat]. destruct (K2 k Hk) as [X|X]; [destruct (K1 k X) as [Y|Y]; [now left|right; apply in_or_app; now left]|right; apply in_or_app; now right].
  - destruct (n_inputs nd) as [|c bs] eqn:E; [split; [reflexivity|now left]|].
    destruct (IH root (i :: parents) s c) as [A1 K1].
    + clear - ND. induction (visits n c) as [|x t IHt]; [constructor|]. cbn in ND. inversion ND as [|? ? X Y]; subst. constructor; [intro F; apply X; apply in_or_app; now left|apply IHt; exact Y].
    + intros k Hk. apply D. apply in_or_app. now left.
    + destruct (fold_once (look n h false (i :: parents)) (visits n) (n_cases nd) (look n h root (i :: parents) s c)) as [A2 K2].
      * intros s' j _ P Q. apply IH; assumption.
      * clear - ND. induction (visits n c) as [|x t IHt]; [exact ND|]. cbn in ND. inversion ND; subst. apply IHt. assumption.
      * intros k Hk F. destruct (K1 k F) as [X|X]; [exact (D k (in_or_app _ _ _ (or_intror Hk)) X)|].
        clear - ND X Hk. induction (visits n c) as [|x t IHt]; [destruct X|]. cbn in ND. inversion ND as [|? ? U W]; subst. destruct X as [<-|X]; [apply U; apply in_or_app; now right|apply IHt; assumption].
      * split; [congruence|]. intros k Hk. destruct (K2 k Hk) as [X|X]; [destruct (K1 k X) as [Y|Y]; [now left|right; apply in_or_app; now left]|right; apply in_or_app; now right].
  - destruct pv; [split; [reflexivity|now left]|]. apply fold_once; [|exact ND|exact D]. intros s' j _ P Q. apply IH; assumption.
Qed.
End Look.

(* ---- insertion ---- *)
Section Grown.
Variable anc : list (nat * nat).
Variable rk : nat -> nat.
Hypothesis A : forall b x, In (b, x) anc -> rk x < rk b.

Inductive grew (r : nat) : list nat -> list nat -> Prop :=
| g_nil : grew r [] []
| g_same : forall x l l', grew r l l' -> grew r (x :: l) (x :: l')
| g_ins : forall b x l l', In (b, x) anc -> rk x < r -> grew r l l' -> grew r l (x :: l').
Lemma grew_refl : forall r l, grew r l l.
Proof. intros r l. induction l; constructor; assumption. Qed.
Lemma grew_trans : forall r l l1 l2, grew r l l1 -> grew r l1 l2 -> grew r l l2.
Proof.
  intros r l l1 l2 G F. revert l G. induction F as [|x l1 l2 F IH|b x l1 l2 I X F IH]; intros l G.
  - exact G.
  - inversion G; subst; [apply g_same; apply IH; assumption|eapply g_ins; [eassumption|assumption|apply IH; assumption]].
  - eapply g_ins; [exact I|exact X|apply IH; exact G].
Qed.
Lemma grew_app : forall r l l' m m', grew r l l' -> grew r m m' -> grew r (l ++ m) (l' ++ m').
Proof. intros r l l' m m' G F. induction G; cbn; [exact F|apply g_same; exact IHG|eapply g_ins; eassumption]. Qed.

Definition grown (h h' : heap) : Prop := forall k, match nth_error h k, nth_error h' k with
  | Some nd, Some nd' => n_kind nd' = n_kind nd /\ n_cases nd' = n_cases nd /\ ((exists p, n_kind nd = KStmt p) /\ grew (rk k) (n_inputs nd) (n_inputs nd') \/ n_inputs nd' = n_inputs nd)
  | None, None => True
  | _, _ => False
  end.
Lemma grown_refl : forall h, grown h h.
Proof. intros h k. destruct (nth_error h k); [|exact I]. split; [reflexivity|]. split; [reflexivity|now right]. Qed.
Lemma grown_trans : forall h h1 h2, grown h h1 -> grown h1 h2 -> grown h h2.
Proof.
  intros h h1 h2 F G k. specialize (F k). specialize (G k). destruct (nth_error h k) as [nd|]; destruct (nth_error h1 k) as [n1|]; destruct (nth_error h2 k) as [n2|]; try contradiction; try exact I.
  destruct F as (F1 & F2 & F3). destruct G as (G1 & G2 & G3). split; [congruence|]. split; [congruence|].
  destruct F3 as [[P F3]|F3]; destruct G3 as [[P' G3]|G3].
  - left. split; [exact P|eapply grew_trans; eassumption].
  - left. split; [exact P|rewrite G3; exact F3].
  - left. split; [destruct P' as [p P']; exists p; congruence|rewrite <- F3; exact G3].
  - right. congruence.
Qed.
Lemma nth_set : forall h i l k, nth_error (set_inputs h i l) k = if Nat.eqb k i then option_map (fun x => mkN (n_kind x) l (n_cases x)) (nth_error h k) else nth_error h k.
Proof. induction h as [|x h IH]; intros [|i] l [|k]; cbn; try reflexivity; try apply IH. destruct (Nat.eqb k i); reflexivity. Qed.
Lemma grown_ranked : forall h h', ranked h rk -> grown h h' -> ranked h' rk.
Proof.
  intros h h' R G i nd' c N C. specialize (G i). rewrite N in G. destruct (nth_error h i) as [nd|] eqn:N0; [|contradiction]. destruct G as (_ & G2 & G3).
  apply in_app_or in C. destruct C as [C|C]; [|rewrite G2 in C; apply (R i nd c N0); apply in_or_app; now right].
  destruct G3 as [[_ G3]|G3]; [|rewrite G3 in C; apply (R i nd c N0); apply in_or_app; now left].
  assert (H : forall x, In x (n_inputs nd) -> rk x < rk i) by (intros x Hx; apply (R i nd x N0); apply in_or_app; now left).
  clear - G3 C H. induction G3 as [|x l l' G IH|b x l l' I X G IH]; [destruct C|destruct C as [<-|C]; [apply H; now left|apply IH; [exact C|intros; apply H; now right]]|destruct C as [<-|C]; [exact X|apply IH; assumption]].
Qed.

Lemma insert_grown : forall n h i, ranked h rk -> grown h (insert_pre n anc h i).
Proof.
  induction n as [|n IH]; intros h i R; [apply grown_refl|]. cbn [insert_pre]. destruct (nth_error h i) as [nd|] eqn:N; [|apply grown_refl].
  assert (FO : forall l h0, ranked h0 rk -> grown h0 (fold_left (insert_pre n anc) l h0)).
  { induction l as [|j l IHl]; intros h0 R0; [apply grown_refl|]. cbn [fold_left]. pose proof (IH h0 j R0) as G. eapply grown_trans; [exact G|]. apply IHl. eapply grown_ranked; eassumption. }
  destruct (n_kind nd) as [v|c| | | |pv|] eqn:K; try apply grown_refl; try (apply FO; exact R).
  assert (FS : forall l h0 acc, ranked h0 rk -> (forall x, In x l -> rk x < rk i) ->
     let a := fold_left (fun a op => (insert_pre n anc (fst a) op, snd a ++ pre_nodes anc op ++ [op])) l (h0, acc) in
     grown h0 (fst a) /\ exists l', snd a = acc ++ l' /\ grew (rk i) l l').
  { induction l as [|j l IHl]; intros h0 acc R0 HL; [split; [apply grown_refl|exists []; split; [cbn; now rewrite app_nil_r|constructor]]|]. cbn [fold_left fst snd].
    pose proof (IH h0 j R0) as G. destruct (IHl (insert_pre n anc h0 j) (acc ++ pre_nodes anc j ++ [j])) as (G' & l' & E & W); [eapply grown_ranked; eassumption|intros; apply HL; now right|].
    split; [eapply grown_trans; eassumption|]. exists (pre_nodes anc j ++ j :: l'). split; [rewrite E, <- !app_assoc; reflexivity|].
    assert (HJ : forall x, In x (pre_nodes anc j) -> In (j, x) anc).
    { intros x Hx. unfold pre_nodes in Hx. apply in_map_iff in Hx. destruct Hx as ([b y] & <- & Hy). apply filter_In in Hy. destruct Hy as [Hy E']. cbn in E'. apply Nat.eqb_eq in E'. now subst b. }
    pose proof (HL j (or_introl eq_refl)) as LJ. clear - HJ W A LJ. induction (pre_nodes anc j) as [|x t IHt]; cbn [app]; [apply g_same; exact W|].
    eapply g_ins; [apply HJ; now left|pose proof (A j x (HJ x (or_introl eq_refl))); lia|apply IHt; intros; apply HJ; now right]. }
  destruct (FS (n_inputs nd) h [] R) as (G & l' & E & W); [intros x Hx; apply (R i nd x N); apply in_or_app; now left|].
  destruct (fold_left _ (n_inputs nd) (h, [])) as [h' l]. cbn [fst snd app] in *. subst l.
  intro k. rewrite nth_set. specialize (G k). destruct (Nat.eqb_spec k i) as [->|NK]; [|exact G].
  rewrite N in *. destruct (nth_error h' i) as [nd'|]; [|contradiction]. cbn. destruct G as (G1 & G2 & _). split; [exact G1|]. split; [exact G2|]. left. split; [exists pv; exact K|exact W].
Qed.

Lemma inserted_app : forall B l l' m m', inserted B l l' -> inserted B m m' -> inserted B (l ++ m) (l' ++ m').
Proof. intros B l l' m m' H G. induction H; cbn; [exact G|apply ins_same; exact IHinserted|rewrite <- app_assoc; apply ins_block; assumption]. Qed.
Lemma inserted_refl : forall B l, inserted B l l.
Proof. intros B l. induction l; constructor; assumption. Qed.

Lemma exec_grown : forall h h' choice, ranked h rk -> grown h h' -> forall n i, rk i < n ->
  inserted (fun b => exists a x m, In (a, x) anc /\ rk x < m /\ b = exec h' choice m x) (exec h choice n i) (exec h' choice n i).
Proof.
  intros h h' choice R G. set (B := fun b => _). induction n as [|n IH]; intros i L; [lia|]. cbn [exec]. pose proof (G i) as Gi.
  destruct (nth_error h i) as [nd|] eqn:N; destruct (nth_error h' i) as [nd'|] eqn:N'; try contradiction; [|constructor].
  destruct Gi as (G1 & G2 & G3). rewrite G1, G2.
  assert (SUB : forall c, In c (children nd) -> rk c < n) by (intros c Hc; pose proof (R i nd c N Hc); lia).
  assert (LS : forall l, (forall c, In c l -> rk c < n) -> inserted B (concat (map (exec h choice n) l)) (concat (map (exec h' choice n) l))).
  { induction l as [|c l IHl]; intro H; [constructor|]. cbn [map concat]. apply inserted_app; [apply IH; apply H; now left|apply IHl; intros; apply H; now right]. }
  assert (NT : forall l k, (forall c, In c l -> rk c < n) -> inserted B (match nth_error l k with Some b => exec h choice n b | None => [] end) (match nth_error l k with Some b => exec h' choice n b | None => [] end)).
  { intros l k H. destruct (nth_error l k) as [b|] eqn:E; [apply IH; apply H; eapply nth_error_In; exact E|constructor]. }
  assert (SI : forall c, In c (n_inputs nd) -> rk c < n) by (intros c Hc; apply SUB; apply in_or_app; now left).
  assert (SC : forall c, In c (n_cases nd) -> rk c < n) by (intros c Hc; apply SUB; apply in_or_app; now right).
  destruct G3 as [[[p P] G3]|G3].
  - rewrite P. clear - G3 SI IH L. induction G3 as [|x l l' W IHW|b x l l' I X W IHW]; cbn [map concat].
    + constructor.
    + apply inserted_app; [apply IH; apply SI; now left|apply IHW; intros; apply SI; now right].
    + apply ins_block; [|apply IHW; exact SI]. exists b, x, n. split; [exact I|]. split; [lia|reflexivity].
  - rewrite G3. destruct (n_kind nd) as [v|c| | | |pv|]; try (apply LS; exact SI); try apply ins_nil.
    + apply inserted_app; [apply LS; exact SI|apply inserted_refl].
    + apply inserted_app; [apply LS; exact SI|apply inserted_refl].
    + destruct (n_inputs nd) as [|c bs]; [constructor|]. apply inserted_app; [apply IH; apply SI; now left|apply NT; intros; apply SI; now right].
    + destruct (n_inputs nd) as [|c bs]; [constructor|]. apply inserted_app; [apply IH; apply SI; now left|apply NT; exact SC].
Qed.
End Grown.

Lemma insert_none : forall n h i, insert_pre n [] h i = h.
Proof.
  assert (SI : forall h i nd, nth_error h i = Some nd -> set_inputs h i (n_inputs nd) = h).
  { induction h as [|x h IH]; intros [|i] nd H; cbn in *; try discriminate; [injection H as ->; destruct nd; reflexivity|now rewrite (IH i nd H)]. }
  induction n as [|n IH]; intros h i; [reflexivity|]. cbn [insert_pre]. destruct (nth_error h i) as [nd|] eqn:N; [|reflexivity].
  assert (FO : forall l, fold_left (insert_pre n []) l h = h) by (induction l as [|j l IHl]; [reflexivity|cbn [fold_left]; rewrite IH; exact IHl]).
  destruct (n_kind nd); try reflexivity; try apply FO.
  assert (FS : forall l acc, fold_left (fun a op => (insert_pre n [] (fst a) op, snd a ++ pre_nodes [] op ++ [op])) l (h, acc) = (h, acc ++ l)).
  { induction l as [|j l IHl]; intro acc; [cbn; now rewrite app_nil_r|]. cbn [fold_left fst snd pre_nodes filter map app]. rewrite IH, IHl, <- app_assoc. reflexivity. }
  rewrite FS. cbn [app]. apply SI. exact N.
Qed.
