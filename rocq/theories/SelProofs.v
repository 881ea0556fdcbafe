(* Proofs about the selection of implementations. *)
From Coq Require Import List Arith Bool Lia Sorted.
From Verif Require Import SelModel SelSpec.
Import ListNotations.

Lemma find_first : forall (A : Type) (f : A -> bool) (P : A -> Prop), (forall x, f x = true <-> P x) -> forall l x, find f l = Some x <-> first_of P l x.
Proof.
  intros A f P FP l x. split.
  - induction l as [|y l IH]; cbn; [discriminate|]. destruct (f y) eqn:E.
    + intro H. injection H as <-. exists [], l. split; [reflexivity|]. split; [now apply FP|intros z []].
    + intro H. destruct (IH H) as (l1 & l2 & -> & PX & N). exists (y :: l1), l2. split; [reflexivity|]. split; [exact PX|]. intros z [<-|Hz]; [intro X; apply FP in X; congruence|apply N; exact Hz].
  - intros (l1 & l2 & -> & PX & N). induction l1 as [|y l1 IH]; cbn.
    + now rewrite (proj2 (FP x) PX).
    + destruct (f y) eqn:E; [destruct (N y (or_introl eq_refl)); now apply FP|]. apply IH. intros z Hz. apply N. now right.
Qed.
Lemma find_app : forall (A : Type) (f : A -> bool) l1 l2, find f (l1 ++ l2) = match find f l1 with Some x => Some x | None => find f l2 end.
Proof. intros A f. induction l1 as [|x l1 IH]; intro l2; [reflexivity|]. cbn. destruct (f x); [reflexivity|apply IH]. Qed.
Lemma find_filter : forall (A : Type) (f g : A -> bool) l, find f (filter g l) = find (fun x => g x && f x) l.
Proof. intros A f g. induction l as [|x l IH]; [reflexivity|]. cbn. destruct (g x); cbn; [destruct (f x); [reflexivity|apply IH]|apply IH]. Qed.
Lemma filter_filter' : forall (A : Type) (f g : A -> bool) l, filter f (filter g l) = filter (fun x => g x && f x) l.
Proof. intros A f g. induction l as [|x l IH]; [reflexivity|]. cbn. destruct (g x); cbn; [destruct (f x); now rewrite IH|exact IH]. Qed.
Lemma hd_filter : forall (A : Type) (f : A -> bool) l, hd_error (filter f l) = find f l.
Proof. intros A f. induction l as [|x l IH]; [reflexivity|]. cbn. destruct (f x); [reflexivity|exact IH]. Qed.

Section Sel.
Variables node impl lang key : Type.
Variable lang_eqb : lang -> lang -> bool.
Variable key_eqb : key -> key -> bool.
Variable key_of : node -> key.
Hypothesis lang_ok : forall a b, lang_eqb a b = true <-> a = b.
Hypothesis key_ok : forall a b, key_eqb a b = true <-> a = b.
Notation entry := (entry node impl lang key).
Notation found := (found node impl lang key lang_eqb key_eqb key_of).
Notation map_supported := (map_supported node impl lang key lang_eqb key_eqb key_of).
Notation get_impl := (get_impl node impl lang key).
Notation recursive := (recursive node impl lang key lang_eqb key_eqb key_of).
Notation applies := (applies node impl lang key key_of).
Notation strong := (strong node impl lang key key_of).
Notation weak := (weak node impl lang key key_of).
Variable l : lang.
Variable nd : node.
Definition here (e : entry) : bool := lang_eqb (e_lang e) l && key_eqb (e_key e) (key_of nd).
Definition firm (e : entry) : bool := e_cond e nd && match e_face e nd with Yes | Match false => true | _ => false end.
Definition faint (e : entry) : bool := e_cond e nd && match e_face e nd with Match true => true | _ => false end.
Definition sane (t : list entry) : Prop := forall e, In e t -> e_face e nd <> Odd.
Lemma get_impl_spec : forall es acc, sane es -> get_impl es nd acc = match find firm es with Some e => Impl (e_impl e) | None => Weaks (acc ++ map e_impl (filter faint es)) end.
Proof.
  induction es as [|e es IH]; intros acc SN; cbn [SelModel.get_impl find filter map]; [now rewrite app_nil_r|].
  assert (SN' : sane es) by (intros x Hx; apply SN; now right). assert (NE : e_face e nd <> Odd) by (apply SN; now left). unfold firm at 1, faint at 1. destruct (e_cond e nd); cbn [andb]; [|apply IH; exact SN'].
  destruct (e_face e nd) as [| |[|]|]; try reflexivity; [apply IH; exact SN'| |congruence]. rewrite IH by exact SN'. destruct (find firm es); [reflexivity|]. cbn [map]. rewrite <- app_assoc. reflexivity.
Qed.
Lemma recursive_spec : forall ts il, sane (concat ts) -> recursive ts l nd il =
  match find (fun e => here e && firm e) (concat ts) with Some e => Sel (e_impl e) | None => match il ++ map e_impl (filter (fun e => here e && faint e) (concat ts)) with i :: _ => Sel i | [] => NoImpl end end.
Proof.
  induction ts as [|t ts IH]; intros il SN; cbn [SelModel.recursive concat]; [cbn; now rewrite app_nil_r|].
  cbn [concat] in SN. assert (S1 : sane t) by (intros e He; apply SN; apply in_app_iff; now left). assert (S2 : sane (concat ts)) by (intros e He; apply SN; apply in_app_iff; now right).
  rewrite find_app, filter_app, map_app. destruct (map_supported t l nd) eqn:MS.
  - unfold get_implementation. assert (S3 : sane (found t l nd)) by (intros e He; apply S1; apply filter_In in He; tauto). rewrite get_impl_spec by exact S3. unfold SelModel.found at 1. rewrite find_filter. fold here.
    change (fun x => (lang_eqb (e_lang x) l && key_eqb (e_key x) (key_of nd)) && firm x) with (fun x => here x && firm x). destruct (find (fun x => here x && firm x) t) as [e|]; [reflexivity|].
    rewrite IH by exact S2. destruct (find (fun e => here e && firm e) (concat ts)); [reflexivity|]. unfold SelModel.found. rewrite filter_filter'. cbn [app]. change (fun x => (lang_eqb (e_lang x) l && key_eqb (e_key x) (key_of nd)) && faint x) with (fun x => here x && faint x). rewrite <- app_assoc. reflexivity.
  - assert (NO : forall e, In e t -> here e = true -> e_cond e nd && truthy (e_face e nd) = false).
    { intros e He HH. apply not_true_iff_false. intro X. rewrite <- not_true_iff_false in MS. apply MS. unfold SelModel.map_supported. apply existsb_exists. exists e. split; [apply filter_In; split; assumption|exact X]. }
    assert (F1 : find (fun e => here e && firm e) t = None).
    { destruct (find (fun e => here e && firm e) t) as [e|] eqn:F; [|reflexivity]. apply find_some in F. destruct F as [He F]. apply andb_true_iff in F. destruct F as [HH F]. specialize (NO e He HH). unfold firm in F. destruct (e_cond e nd); [|discriminate F]. destruct (e_face e nd) as [| |[|]|]; cbn in *; discriminate. }
    assert (F2 : filter (fun e => here e && faint e) t = []).
    { apply hd_error_none_nil || idtac. destruct (filter (fun e => here e && faint e) t) as [|e r] eqn:F; [reflexivity|]. assert (In e (filter (fun e => here e && faint e) t)) by (rewrite F; now left). apply filter_In in H. destruct H as [He H]. apply andb_true_iff in H. destruct H as [HH H].
      specialize (NO e He HH). unfold faint in H. destruct (e_cond e nd); [|discriminate H]. destruct (e_face e nd) as [| |[|]|]; cbn in *; discriminate. }
    rewrite F1, F2. cbn [map app]. apply IH. exact S2.
Qed.
Lemma firm_strong : forall e, e_face e nd <> Odd -> (here e && firm e = true <-> strong l nd e).
Proof.
  intros e NO. unfold SelSpec.strong, SelSpec.applies, here, firm. rewrite !andb_true_iff, lang_ok, key_ok. destruct (e_face e nd) as [| |[|]|]; split; intro H; try (exfalso; destruct H as [_ [_ H]]; discriminate H); try (exfalso; destruct H as [(_ & _ & _ & H) G]; congruence); try congruence.
  - destruct H as [[A B] [C _]]. repeat split; auto; discriminate.
  - destruct H as [(A & B & C & _) _]. auto.
  - destruct H as [[A B] [C _]]. repeat split; auto; discriminate.
  - destruct H as [(A & B & C & _) _]. auto.
Qed.
Lemma faint_weak : forall e, here e && faint e = true <-> weak l nd e.
Proof.
  intros e. unfold SelSpec.weak, SelSpec.applies, here, faint. rewrite !andb_true_iff, lang_ok, key_ok. destruct (e_face e nd) as [| |[|]|]; split; intro H; try (exfalso; destruct H as [_ [_ H]]; discriminate H); try (exfalso; destruct H as [_ G]; congruence).
  - destruct H as [[A B] [C _]]. repeat split; auto; discriminate.
  - destruct H as [(A & B & C & _) _]. auto.
Qed.
End Sel.

(* ---- hierarchy ---- *)
Section Hier.
Variable bases : nat -> list nat.
Lemma listed_iff : forall c l, listed c l = true <-> In c l.
Proof. intros c l. unfold listed. rewrite existsb_exists. split; [intros (x & H & E); apply Nat.eqb_eq in E; now subst|intro H; exists c; split; [exact H|apply Nat.eqb_refl]]. Qed.
Lemma one_level_spec : forall process acc next acc' next', one_level bases process acc next = (acc', next') ->
  exists new, acc' = acc ++ new /\ next' = next ++ concat (map bases new) /\ (forall c, In c new -> In c process) /\ (forall c, In c process -> In c acc') /\ (NoDup acc -> NoDup acc').
Proof.
  induction process as [|c process IH]; intros acc next acc' next' E; cbn [one_level] in E.
  - injection E as <- <-. exists []. rewrite !app_nil_r. repeat split; auto; intros c [].
  - destruct (listed c acc) eqn:LC.
    + destruct (IH _ _ _ _ E) as (new & -> & -> & A & B & C). exists new. repeat split; auto; [intros d Hd; right; auto|]. intros d [<-|Hd]; [apply in_app_iff; left; now apply listed_iff|auto].
    + destruct (IH _ _ _ _ E) as (new & -> & -> & A & B & C). exists (c :: new). rewrite <- !app_assoc in *. cbn [app map concat] in *. split; [reflexivity|]. split; [reflexivity|]. split; [intros d [<-|Hd]; [now left|right; auto]|]. split.
      * intros d [<-|Hd]; [apply in_app_iff; right; now left|auto].
      * intro ND. apply C. assert (NC : ~ In c acc) by (intro X; apply listed_iff in X; congruence). clear - ND NC. induction acc as [|a acc IHa]; [constructor; [intros []|constructor]|]. cbn. inversion_clear ND. constructor; [rewrite in_app_iff; intros [X|[X|[]]]; [contradiction|subst; apply NC; now left]|]. apply IHa; [assumption|intro X; apply NC; now right].
Qed.
Lemma create_spec : forall n process acc res, create_proc_hierarchy bases n process acc = Some res -> NoDup acc -> (forall c b, In c acc -> In b (bases c) -> In b acc \/ In b process) ->
  NoDup res /\ (exists new, res = acc ++ new /\ forall c, In c new -> ancestor bases process c) /\ (forall c, In c process -> In c res) /\ (forall c b, In c res -> In b (bases c) -> In b res).
Proof.
  induction n as [|n IH]; intros process acc res E ND CL; [discriminate E|]. cbn [create_proc_hierarchy] in E. destruct process as [|p0 process].
  - injection E as <-. split; [exact ND|]. split; [exists []; rewrite app_nil_r; split; [reflexivity|intros c []]|]. split; [intros c []|]. intros c b Hc Hb. destruct (CL c b Hc Hb) as [X|[]]; exact X.
  - destruct (one_level bases (p0 :: process) acc []) as [acc' next] eqn:O. destruct (one_level_spec _ _ _ _ _ O) as (new & -> & -> & A & B & C). cbn [app] in E.
    assert (CL' : forall c b, In c (acc ++ new) -> In b (bases c) -> In b (acc ++ new) \/ In b (concat (map bases new))).
    { intros c b Hc Hb. apply in_app_iff in Hc. destruct Hc as [Hc|Hc]; [left; destruct (CL c b Hc Hb) as [X|X]; [apply in_app_iff; now left|apply B; exact X]|]. right. apply in_concat. exists (bases c). split; [now apply in_map|exact Hb]. }
    destruct (IH _ _ _ E (C ND) CL') as (N1 & (new' & -> & N2) & N3 & N4). split; [exact N1|]. split; [|split; [|exact N4]].
    + exists (new ++ new'). rewrite <- app_assoc. split; [reflexivity|]. intros c Hc. apply in_app_iff in Hc. destruct Hc as [Hc|Hc]; [apply anc_base; apply A; exact Hc|].
      specialize (N2 c Hc). clear - N2 A. induction N2 as [c Hc|c b X IHX Hb]; [|eapply anc_step; eassumption]. apply in_concat in Hc. destruct Hc as (bl & Hbl & Hc). apply in_map_iff in Hbl. destruct Hbl as (d & <- & Hd). eapply anc_step; [apply anc_base; apply A; exact Hd|exact Hc].
    + intros c Hc. apply in_app_iff. left. apply B. exact Hc.
Qed.
Lemma create_ends : forall U, (forall c b, In c U -> In b (bases c) -> In b U) -> forall n process acc, incl process U -> incl acc U -> NoDup acc -> length U - length acc + 2 <= n -> create_proc_hierarchy bases n process acc <> None.
Proof.
  intros U CU. induction n as [|n IH]; intros process acc PU AU ND L; [lia|]. cbn [create_proc_hierarchy]. destruct process as [|p0 process]; [discriminate|].
  destruct (one_level bases (p0 :: process) acc []) as [acc' next] eqn:O. destruct (one_level_spec _ _ _ _ _ O) as (new & -> & -> & A & B & C). cbn [app].
  assert (NU : incl new U) by (intros c Hc; apply PU; apply A; exact Hc).
  destruct new as [|c0 new].
  - cbn [map concat]. destruct n as [|n]; [lia|]. discriminate.
  - assert (AU' : incl (acc ++ c0 :: new) U) by (intros c Hc; apply in_app_iff in Hc; destruct Hc; auto).
    pose proof (NoDup_incl_length (C ND) AU') as LE. apply IH; [|exact AU'|exact (C ND)|rewrite app_length in *; cbn [length] in *; lia].
    intros b Hb. apply in_concat in Hb. destruct Hb as (bl & Hbl & Hb). apply in_map_iff in Hbl. destruct Hbl as (d & <- & Hd). eapply CU; [apply NU; exact Hd|exact Hb].
Qed.
(* levels *)
Lemma create_levels : forall (lev : nat -> nat), (forall c b, In b (bases c) -> lev b = S (lev c)) -> forall n k process acc res, create_proc_hierarchy bases n process acc = Some res ->
  (forall c, In c process -> lev c = k) -> (forall c, In c acc -> lev c < k) -> StronglySorted (fun x y => lev x <= lev y) acc -> StronglySorted (fun x y => lev x <= lev y) res.
Proof.
  intros lev G. assert (AP : forall acc new k, StronglySorted (fun x y => lev x <= lev y) acc -> (forall c, In c acc -> lev c < k) -> (forall c, In c new -> lev c = k) -> StronglySorted (fun x y => lev x <= lev y) (acc ++ new)).
  { induction acc as [|a acc IHa]; intros new k SS LA LN; cbn [app].
    - clear - LN. induction new as [|x new IHn]; constructor; [apply IHn; intros c Hc; apply LN; now right|]. apply Forall_forall. intros y Hy. rewrite (LN x), (LN y); [lia|now right|now left].
    - inversion_clear SS as [|? ? S1 F]. constructor; [eapply IHa; eauto; intros c Hc; apply LA; now right|]. apply Forall_forall. intros y Hy. apply in_app_iff in Hy. destruct Hy as [Hy|Hy]; [rewrite Forall_forall in F; exact (F y Hy)|]. rewrite (LN y Hy). pose proof (LA a (or_introl eq_refl)). lia. }
  induction n as [|n IH]; intros k process acc res E LP LA SS; [discriminate E|]. cbn [create_proc_hierarchy] in E. destruct process as [|p0 process]; [now injection E as <-|].
  destruct (one_level bases (p0 :: process) acc []) as [acc' next] eqn:O. destruct (one_level_spec _ _ _ _ _ O) as (new & -> & -> & A & B & C). cbn [app] in E. eapply (IH (S k)); [exact E| | |].
  - intros b Hb. apply in_concat in Hb. destruct Hb as (bl & Hbl & Hb). apply in_map_iff in Hbl. destruct Hbl as (d & <- & Hd). rewrite (G d b Hb). f_equal. apply LP. apply A. exact Hd.
  - intros c Hc. apply in_app_iff in Hc. destruct Hc as [Hc|Hc]; [specialize (LA c Hc); lia|]. rewrite (LP c) by (apply A; exact Hc). lia.
  - eapply AP; [exact SS|exact LA|]. intros c Hc. apply LP. apply A. exact Hc.
Qed.
Lemma sorted_precedes : forall (lev : nat -> nat) l x y, StronglySorted (fun x y => lev x <= lev y) l -> In x l -> In y l -> lev x < lev y -> precedes l x y.
Proof.
  intros lev. induction l as [|a l IH]; intros x y SS HX HY L; [destruct HX|]. inversion_clear SS as [|? ? S1 F]. destruct HX as [->|HX].
  - destruct HY as [->|HY]; [lia|]. apply in_split in HY. destruct HY as (l2 & l3 & ->). exists [], l2, l3. reflexivity.
  - destruct HY as [->|HY]; [rewrite Forall_forall in F; specialize (F x HX); lia|]. destruct (IH x y S1 HX HY L) as (l1 & l2 & l3 & ->). exists (a :: l1), l2, l3. reflexivity.
Qed.
End Hier.
