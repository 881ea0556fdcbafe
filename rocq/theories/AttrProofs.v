(* Proofs about attributes and copies. *)
From Coq Require Import List Arith Bool Lia.
From Verif Require Import AttrModel AttrSpec.
Import ListNotations.

(* classes whose stacks are not empty *)
Definition ready (s : cls) : Prop := d_precision s <> [] /\ d_silent s <> [] /\ d_rounding s <> [].
Definition static (m : init_map) : Prop := forall n, assoc m (Dyn n) = None.
Definition defaults (cs : list ctor) : list (nat * value) := map (fun c => (ct_name c, ct_default c)) cs.

Lemma dyn_init_static cs m : static m -> (forall c, In c cs -> ct_required c = false) -> dyn_init cs m = Ok (defaults cs).
Proof.
  intros S1 R. induction cs as [| c t IH]; [reflexivity |].
  cbn [dyn_init defaults map]. unfold attr_init. rewrite S1, (R c (or_introl eq_refl)). cbn [bind].
  rewrite IH by (intros d I; apply R; right; exact I). reflexivity.
Qed.
Lemma dyn_init_required cs m : static m -> (exists c, In c cs /\ ct_required c = true) -> dyn_init cs m = Raise.
Proof.
  intros S1. induction cs as [| c t IH]; intros [d [I R]]; [destruct I |].
  cbn [dyn_init]. unfold attr_init. rewrite S1. destruct (ct_required c) eqn:E; [reflexivity |].
  cbn [bind]. destruct I as [-> | I]; [congruence |].
  rewrite IH by (exists d; split; assumption). reflexivity.
Qed.
Lemma copydyn_same cs l : (forall c, In c cs -> exists v, getdyn l (ct_name c) = Ok v) ->
  exists r, copydyn cs l = Ok r /\ forall c, In c cs -> getdyn r (ct_name c) = getdyn l (ct_name c).
Proof.
  induction cs as [| c t IH]; intro H.
  - exists []. split; [reflexivity | intros c []].
  - destruct (H c (or_introl eq_refl)) as [v E].
    destruct IH as [r [R S1]]; [intros d I; apply H; right; exact I |].
    exists ((ct_name c, v) :: r). split; [cbn [copydyn]; rewrite E, R; reflexivity |].
    intros d I. cbn [getdyn]. destruct (Nat.eqb_spec (ct_name d) (ct_name c)) as [X | X]; [rewrite X, E; reflexivity |].
    destruct I as [-> | I]; [contradiction |]. apply S1. exact I.
Qed.

(* ---- stacks *)
Lemma do_calls_app l1 : forall s l2, do_calls s (l1 ++ l2) = do_calls (do_calls s l1) l2.
Proof. induction l1 as [| c t IH]; intros s l2; [reflexivity |]. cbn [app do_calls]. apply IH. Qed.
Lemma balanced_same l : balanced l -> forall s, do_calls s l = s.
Proof.
  intro B. induction B as [| v l1 l2 B1 IH1 B2 IH2]; intro s; [reflexivity |].
  cbn [do_calls]. rewrite do_calls_app, IH1. cbn [do_calls do_call fst with_precision d_precision]. rewrite IH2.
  destruct s; reflexivity.
Qed.

(* ---- copies of constants *)
Lemma upd_same f n v : upd f n v n = v.
Proof. unfold upd. rewrite Nat.eqb_refl. reflexivity. Qed.
Lemma upd_other f n v k : k <> n -> upd f n v k = f k.
Proof. intro H. unfold upd. rewrite (proj2 (Nat.eqb_neq _ _) H). reflexivity. Qed.
Lemma copy_again w c : copy_constant (snd (copy_constant w c)) c = (fst (copy_constant w c), snd (copy_constant w c)).
Proof.
  unfold copy_constant at 2 3 4. destruct (find_copy (dmap w) c) as [n |] eqn:E; cbn [fst snd].
  - unfold copy_constant. rewrite E. reflexivity.
  - unfold copy_constant. cbn [dmap find_copy]. rewrite Nat.eqb_refl. reflexivity.
Qed.
Lemma copy_spec base w c n w1 :
  copies_ok base w -> c < base -> copy_constant w c = (n, w1) ->
  copies_ok base w1 /\ base <= n < next w1 /\ find_copy (dmap w1) c = Some n /\
  (forall d, d <> c -> find_copy (dmap w1) d = find_copy (dmap w) d) /\
  (forall k, k <> n -> fmt w1 k = fmt w k) /\
  (forall k, find_copy (dmap w) c = Some k -> k = n).
Proof.
  intros [B [R I]] C E. unfold copy_constant in E. destruct (find_copy (dmap w) c) as [m |] eqn:F; injection E as <- <-.
  - split; [split; [exact B | split; assumption] |]. split; [apply (R c m F) |]. split; [exact F |].
    split; [reflexivity |]. split; [reflexivity |]. intros k K. injection K as K. symmetry. exact K.
  - cbn [dmap next fmt find_copy]. rewrite Nat.eqb_refl.
    assert (O1 : forall d, d <> c -> (if Nat.eqb d c then Some (next w) else find_copy (dmap w) d) = find_copy (dmap w) d).
    { intros d N. rewrite (proj2 (Nat.eqb_neq _ _) N). reflexivity. }
    split; [| split; [lia | split; [reflexivity | split; [exact O1 | split; [intros k N; apply upd_other; exact N | discriminate]]]]].
    split; [cbn [next]; lia |]. cbn [dmap next find_copy]. split.
    + intros d k. destruct (Nat.eqb_spec d c) as [-> | N].
      * intro K. injection K as <-. lia.
      * intro K. apply R in K. lia.
    + intros d e k. destruct (Nat.eqb_spec d c) as [-> | N]; destruct (Nat.eqb_spec e c) as [-> | M]; intros K L.
      * reflexivity.
      * injection K as <-. apply R in L. lia.
      * injection L as <-. apply R in K. lia.
      * exact (I d e k K L).
Qed.

(* where the input of an operation is, and that its format stays *)
Definition settled (f0 : nat -> value) (w : world) (cf : nat * nat) (n : nat) : Prop :=
  (f0 (fst cf) = Some (snd cf) /\ n = fst cf) \/
  (f0 (fst cf) <> Some (snd cf) /\ find_copy (dmap w) (fst cf) = Some n /\ fmt w n = Some (snd cf)).
(* requests that do not ask for a constant in two formats that it has not *)
Definition compatible (f0 : nat -> value) (l : list (nat * nat)) : Prop :=
  forall c f g, In (c, f) l -> In (c, g) l -> f = g \/ f0 c = Some f \/ f0 c = Some g.

Lemma propagate_step base f0 w c f n w1 :
  copies_ok base w -> (forall k, k < base -> fmt w k = f0 k) -> c < base -> f0 c <> None ->
  propagate w c f = (n, w1) ->
  copies_ok base w1 /\ (forall k, k < base -> fmt w1 k = f0 k) /\ settled f0 w1 (c, f) n /\
  forall d g m, d < base -> settled f0 w (d, g) m -> (d = c -> g = f \/ f0 c = Some f \/ f0 c = Some g) -> settled f0 w1 (d, g) m.
Proof.
  intros OK F0 C NN E. unfold propagate in E. rewrite (F0 c C) in E.
  destruct (f0 c) as [p |] eqn:P; [| contradiction].
  destruct (Nat.eqb_spec f p) as [-> | NE].
  - injection E as <- <-. split; [exact OK | split; [exact F0 | split]].
    + left. cbn [fst snd]. split; [exact P | reflexivity].
    + intros d g m _ S1 _. exact S1.
  - destruct (copy_constant w c) as [n1 w2] eqn:K. injection E as <- <-.
    destruct (copy_spec base w c n1 w2 OK C K) as [OK2 [BN [FC [FO [FM OLD]]]]].
    assert (FX : forall k, k <> n1 -> fmt (set_precision w2 n1 (Some f)) k = fmt w k).
    { intros k N. cbn [set_precision fmt]. rewrite upd_other by exact N. apply FM. exact N. }
    split; [exact OK2 | split; [| split]].
    + intros k L. rewrite FX by lia. apply F0. exact L.
    + right. cbn [fst snd]. split; [rewrite P; intro X; injection X; intro; congruence |].
      split; [exact FC |]. cbn [set_precision fmt]. apply upd_same.
    + intros d g m D [[A B] | [A [B G]]] CP; [left; split; assumption |]. cbn [fst snd] in *.
      right. cbn [fst snd]. split; [exact A |].
      destruct (Nat.eq_dec d c) as [-> | N].
      * rewrite P in A. destruct (CP eq_refl) as [-> | [X | X]]; [| injection X; intro; congruence | contradiction].
        assert (m = n1) by (apply OLD; exact B). subst m. split; [exact FC |].
        cbn [set_precision fmt]. apply upd_same.
      * split; [cbn [set_precision dmap]; rewrite FO by exact N; exact B |].
        rewrite FX; [exact G |]. intros ->.
        destruct OK2 as [_ [_ I]]. apply N. apply (I d c n1); [rewrite FO by exact N; exact B | exact FC].
Qed.

Lemma Forall2_keep {A B} (P Q : A -> B -> Prop) l m :
  Forall2 P l m -> (forall x y, In x l -> P x y -> Q x y) -> Forall2 Q l m.
Proof.
  intro F. induction F as [| x y l m H F IH]; intro K; constructor.
  - apply K; [left; reflexivity | exact H].
  - apply IH. intros a b I. apply K. right. exact I.
Qed.
Lemma propagate_all_settled base f0 l : forall w done slots,
  copies_ok base w -> (forall k, k < base -> fmt w k = f0 k) ->
  (forall c f, In (c, f) (done ++ l) -> c < base /\ f0 c <> None) -> compatible f0 (done ++ l) ->
  Forall2 (settled f0 w) done slots ->
  (forall k, k < base -> fmt (snd (propagate_all w l)) k = f0 k) /\
  Forall2 (settled f0 (snd (propagate_all w l))) (done ++ l) (slots ++ fst (propagate_all w l)).
Proof.
  induction l as [| [c f] t IH]; intros w done slots OK F0 RG CP FA.
  - cbn [propagate_all fst snd]. rewrite !app_nil_r. split; assumption.
  - cbn [propagate_all]. destruct (propagate w c f) as [n w1] eqn:E.
    destruct (RG c f) as [CB CN]; [apply in_or_app; right; left; reflexivity |].
    destruct (propagate_step base f0 w c f n w1 OK F0 CB CN E) as [OK1 [F1 [S1 KEEP]]].
    assert (T : done ++ (c, f) :: t = (done ++ [(c, f)]) ++ t) by (rewrite <- app_assoc; reflexivity).
    specialize (IH w1 (done ++ [(c, f)]) (slots ++ [n]) OK1 F1).
    destruct (propagate_all w1 t) as [ns w2]. cbn [fst snd] in *.
    rewrite T in RG, CP |- *.
    assert (T2 : slots ++ n :: ns = (slots ++ [n]) ++ ns) by (rewrite <- app_assoc; reflexivity). rewrite T2.
    apply IH; [exact RG | exact CP |].
    apply Forall2_app; [| constructor; [exact S1 | constructor]].
    assert (SUB : forall x, In x done -> In x ((done ++ [(c, f)]) ++ t)) by (intros x I; rewrite <- app_assoc; apply in_or_app; left; exact I).
    assert (CF : In (c, f) ((done ++ [(c, f)]) ++ t)) by (rewrite <- app_assoc; apply in_or_app; right; left; reflexivity).
    apply (Forall2_keep _ _ _ _ FA). intros [d g] m DI H. apply SUB in DI.
    apply KEEP; [apply (RG d g DI) | exact H |]. intros ->.
    destruct (CP c g f DI CF) as [X | [X | X]]; [left; exact X | right; right; exact X | right; left; exact X].
Qed.
