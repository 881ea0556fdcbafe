(* Properties of the selection of implementations (abstract_backend.py, generator_utility.py). *)
From Coq Require Import List Arith Bool Lia Sorted.
From Verif Require Import SelModel SelSpec SelProofs.
Import ListNotations.

Section Selection.
Variables node impl lang key : Type.
Variable lang_eqb : lang -> lang -> bool.
Variable key_eqb : key -> key -> bool.
Variable key_of : node -> key.
Hypothesis lang_ok : forall a b, lang_eqb a b = true <-> a = b.
Hypothesis key_ok : forall a b, key_eqb a b = true <-> a = b.
Notation entry := (entry node impl lang key).
Notation select := (get_recursive_implementation node impl lang key lang_eqb key_eqb key_of).
Notation supported := (is_supported_operation node impl lang key lang_eqb key_eqb key_of).
Notation applies := (applies node impl lang key key_of).
Notation strong := (strong node impl lang key key_of).
Notation weak := (weak node impl lang key key_of).

Lemma select_find : forall (ts : list (list entry)) l nd, (forall e, In e (concat ts) -> e_face e nd <> Odd) -> select ts l nd =
  match find (fun e => here _ _ _ _ lang_eqb key_eqb key_of l nd e && firm _ _ _ _ nd e) (concat ts) with
  | Some e => Sel (e_impl e)
  | None => match find (fun e => here _ _ _ _ lang_eqb key_eqb key_of l nd e && faint _ _ _ _ nd e) (concat ts) with Some e => Sel (e_impl e) | None => NoImpl end
  end.
Proof.
  intros ts l nd SN. unfold get_recursive_implementation. rewrite (recursive_spec _ _ _ _ _ _ _ l nd ts []) by exact SN. destruct (find _ (concat ts)); [reflexivity|]. cbn [app]. rewrite <- hd_filter. destruct (filter _ (concat ts)); reflexivity.
Qed.
(* first_of on sane lists only *)
Lemma find_first_sane : forall (ts : list entry) l nd, (forall e, In e ts -> e_face e nd <> Odd) -> forall e,
  find (fun e => here _ _ _ _ lang_eqb key_eqb key_of l nd e && firm _ _ _ _ nd e) ts = Some e <-> first_of (strong l nd) ts e.
Proof.
  intros ts l nd. induction ts as [|x ts IH]; intros SN e.
  - cbn. split; [discriminate|]. intros (l1 & l2 & E & _). destruct l1; discriminate E.
  - cbn [find]. destruct (here _ _ _ _ lang_eqb key_eqb key_of l nd x && firm _ _ _ _ nd x) eqn:F.
    + pose proof (proj1 (firm_strong _ _ _ _ _ _ _ lang_ok key_ok l nd x (SN x (or_introl eq_refl))) F) as ST. split.
      * intro H. injection H as <-. exists [], ts. split; [reflexivity|]. split; [exact ST|intros y []].
      * intros (l1 & l2 & E & P & N). destruct l1 as [|y l1]; cbn in E; injection E as -> ->; [reflexivity|]. destruct (N y (or_introl eq_refl) ST).
    + assert (NS : ~ strong l nd x) by (intro X; apply (firm_strong _ _ _ _ _ _ _ lang_ok key_ok l nd x (SN x (or_introl eq_refl))) in X; congruence).
      rewrite IH by (intros y Hy; apply SN; now right). split.
      * intros (l1 & l2 & -> & P & N). exists (x :: l1), l2. split; [reflexivity|]. split; [exact P|]. intros y [<-|Hy]; [exact NS|apply N; exact Hy].
      * intros (l1 & l2 & E & P & N). destruct l1 as [|y l1]; cbn in E; injection E as -> ->; [contradiction|]. exists l1, l2. split; [reflexivity|]. split; [exact P|]. intros z Hz. apply N. now right.
Qed.
Lemma no_strong : forall (ts : list entry) l nd, (forall e, In e ts -> e_face e nd <> Odd) ->
  (find (fun e => here _ _ _ _ lang_eqb key_eqb key_of l nd e && firm _ _ _ _ nd e) ts = None <-> forall e, In e ts -> ~ strong l nd e).
Proof.
  intros ts l nd SN. split.
  - intros F e He X. apply (firm_strong _ _ _ _ _ _ _ lang_ok key_ok l nd e (SN e He)) in X. pose proof (find_none _ _ F e He). cbn in H. congruence.
  - intro N. destruct (find _ ts) as [e|] eqn:F; [|reflexivity]. apply find_some in F. destruct F as [He F]. apply (firm_strong _ _ _ _ _ _ _ lang_ok key_ok l nd e (SN e He)) in F. destruct (N e He F).
Qed.
Lemma no_weak : forall (ts : list entry) l nd, (find (fun e => here _ _ _ _ lang_eqb key_eqb key_of l nd e && faint _ _ _ _ nd e) ts = None <-> forall e, In e ts -> ~ weak l nd e).
Proof.
  intros ts l nd. split.
  - intros F e He X. apply (faint_weak _ _ _ _ _ _ _ lang_ok key_ok l nd e) in X. pose proof (find_none _ _ F e He). cbn in H. congruence.
  - intro N. destruct (find _ ts) as [e|] eqn:F; [|reflexivity]. apply find_some in F. destruct F as [He F]. apply (faint_weak _ _ _ _ _ _ _ lang_ok key_ok l nd e) in F. destruct (N e He F).
Qed.

(* C133.  The implementation selected is that of the first entry which applies and is not
   weak, over the target then its parents in order; without such an entry, of the first weak
   one; and none is selected exactly when no entry applies. *)
Theorem selection_first : forall (ts : list (list entry)) l nd, (forall e, In e (concat ts) -> e_face e nd <> Odd) -> forall i,
  select ts l nd = Sel i <-> (exists e, first_of (strong l nd) (concat ts) e /\ e_impl e = i) \/ ((forall e, In e (concat ts) -> ~ strong l nd e) /\ exists e, first_of (weak l nd) (concat ts) e /\ e_impl e = i).
Proof.
  intros ts l nd SN i. rewrite select_find by exact SN. destruct (find _ (concat ts)) as [e|] eqn:F.
  - pose proof (proj1 (find_first_sane _ l nd SN e) F) as FF. split.
    + intro H. injection H as <-. left. exists e. split; [exact FF|reflexivity].
    + intros [(e' & F' & <-)|(N & _)].
      * apply (find_first_sane _ l nd SN) in F'. rewrite F in F'. now injection F' as ->.
      * destruct FF as (l1 & l2 & E & P & _). destruct (N e); [rewrite E; apply in_app_iff; right; now left|exact P].
  - pose proof (proj1 (no_strong _ l nd SN) F) as NS. destruct (find _ (concat ts)) as [w|] eqn:G in |- *.
    + pose proof (proj1 (find_first _ _ _ (faint_weak _ _ _ _ _ _ _ lang_ok key_ok l nd) _ _) G) as GG. split.
      * intro H. injection H as <-. right. split; [exact NS|]. exists w. split; [exact GG|reflexivity].
      * intros [(e' & (l1 & l2 & E & P & _) & <-)|(_ & w' & F' & <-)]; [destruct (NS e'); [rewrite E; apply in_app_iff; right; now left|exact P]|].
        apply (find_first _ _ _ (faint_weak _ _ _ _ _ _ _ lang_ok key_ok l nd)) in F'. rewrite G in F'. now injection F' as ->.
    + pose proof (proj1 (no_weak _ l nd) G) as NW. split; [discriminate|]. intros [(e' & (l1 & l2 & E & P & _) & _)|(_ & w' & (l1 & l2 & E & P & _) & _)].
      * destruct (NS e'); [rewrite E; apply in_app_iff; right; now left|exact P].
      * destruct (NW w'); [rewrite E; apply in_app_iff; right; now left|exact P].
Qed.
Theorem selection_none : forall (ts : list (list entry)) l nd, (forall e, In e (concat ts) -> e_face e nd <> Odd) ->
  (select ts l nd = NoImpl <-> forall e, In e (concat ts) -> ~ applies l nd e) /\ select ts l nd <> Raise.
Proof.
  intros ts l nd SN. rewrite select_find by exact SN.
  assert (SP : forall e, applies l nd e <-> strong l nd e \/ weak l nd e).
  { intro e. unfold SelSpec.strong, SelSpec.weak. split; [intro A; destruct (e_face e nd) as [| |[|]|] eqn:E; try (left; split; [exact A|discriminate]); right; split; auto|intros [[A _]|[A _]]; exact A]. }
  destruct (find _ (concat ts)) as [e|] eqn:F.
  - split; [|discriminate]. split; [discriminate|]. intro N. apply (find_first_sane _ l nd SN) in F. destruct F as (l1 & l2 & E & P & _). destruct (N e); [rewrite E; apply in_app_iff; right; now left|apply SP; now left].
  - pose proof (proj1 (no_strong _ l nd SN) F) as NS. destruct (find _ (concat ts)) as [w|] eqn:G in |- *.
    + split; [|discriminate]. split; [discriminate|]. intro N. apply find_some in G. destruct G as [Hw G]. apply (faint_weak _ _ _ _ _ _ _ lang_ok key_ok l nd w) in G. destruct (N w Hw). apply SP. now right.
    + pose proof (proj1 (no_weak _ l nd) G) as NW. split; [|discriminate]. split; [|reflexivity]. intros _ e He A. apply SP in A. destruct A as [A|A]; [exact (NS e He A)|exact (NW e He A)].
Qed.
(* an operation is said supported in the registered languages for which some entry applies *)
Theorem supported_iff : forall langs (ts : list (list entry)) l nd, supported langs ts l nd = true <-> In l langs /\ exists e, In e (concat ts) /\ applies l nd e.
Proof.
  intros langs ts l nd. unfold is_supported_operation. assert (LE : existsb (lang_eqb l) langs = true <-> In l langs).
  { rewrite existsb_exists. split; [intros (x & Hx & E); apply lang_ok in E; now subst|intro H; exists l; split; [exact H|now apply lang_ok]]. }
  destruct (existsb (lang_eqb l) langs); [|split; [discriminate|intros [X _]; apply LE in X; discriminate X]].
  unfold map_supported, found, supported_op_map. rewrite existsb_exists. split.
  - intros (e & He & T). apply filter_In in He. destruct He as [He K]. apply andb_true_iff in K, T. destruct K as [K1 K2], T as [T1 T2]. apply lang_ok in K1. apply key_ok in K2. split; [now apply LE|]. exists e. split.
    + destruct ts as [|self parents]; [destruct He|]. apply filter_In in He. cbn [concat]. destruct He as [He _]. rewrite in_app_iff in *. tauto.
    + repeat split; auto. intro X. rewrite X in T2. discriminate T2.
  - intros (_ & e & He & (K1 & K2 & C & F)). exists e. split.
    + apply filter_In. split; [|apply andb_true_iff; split; [now apply lang_ok|now apply key_ok]]. destruct ts as [|self parents]; [destruct He|]. cbn [concat] in He. apply filter_In. split; [rewrite in_app_iff in *; tauto|now apply lang_ok].
    + rewrite C. destruct (e_face e nd); try reflexivity. congruence.
Qed.
Theorem supported_selected : forall langs (ts : list (list entry)) l nd, (forall e, In e (concat ts) -> e_face e nd <> Odd) -> In l langs ->
  (supported langs ts l nd = true <-> exists i, select ts l nd = Sel i).
Proof.
  intros langs ts l nd SN IL. destruct (selection_none ts l nd SN) as [N R]. rewrite supported_iff. split.
  - intros (_ & e & He & A). destruct (select ts l nd) as [i| |] eqn:S; [now exists i| |congruence]. destruct (proj1 N eq_refl e He A).
  - intros [i E]. split; [exact IL|]. apply (selection_first ts l nd SN) in E. destruct E as [(e & (l1 & l2 & E & P & _) & _)|(_ & e & (l1 & l2 & E & P & _) & _)]; exists e; (split; [rewrite E; apply in_app_iff; right; now left|exact (proj1 P)]).
Qed.
(* what a target has for an unregistered language is selected, and said not supported:
   only the default language is registered (59-60) *)
Theorem unregistered_refuted : forall langs (ts : list (list entry)) l nd e, (forall e, In e (concat ts) -> e_face e nd <> Odd) -> ~ In l langs -> In e (concat ts) -> applies l nd e ->
  supported langs ts l nd = false /\ exists i, select ts l nd = Sel i.
Proof.
  intros langs ts l nd e SN NL He A. split.
  - apply not_true_iff_false. intro X. apply supported_iff in X. tauto.
  - destruct (selection_none ts l nd SN) as [N R]. destruct (select ts l nd) as [i| |] eqn:S; [now exists i| |congruence]. destruct (proj1 N eq_refl e He A).
Qed.
(* a weak entry of the target itself is passed over for a strong one of a far parent *)
Theorem far_parent : forall (self : list entry) (parents : list (list entry)) l nd p, (forall e, In e (concat (self :: parents)) -> e_face e nd <> Odd) -> (forall e, In e self -> ~ strong l nd e) -> first_of (strong l nd) (concat parents) p ->
  select (self :: parents) l nd = Sel (e_impl p).
Proof.
  intros self parents l nd p SN NS (l1 & l2 & E & P & N). apply selection_first; [exact SN|]. left. exists p. split; [|reflexivity]. exists (self ++ l1), l2. cbn [concat]. rewrite E, <- app_assoc. split; [reflexivity|]. split; [exact P|]. intros y Hy. apply in_app_iff in Hy. destruct Hy; auto.
Qed.
(* an answer which is neither a boolean nor a MatchResult: supported, and selecting raises *)
Theorem odd_refuted : forall langs (t : list entry) parents l nd e r, t = e :: r -> In l langs -> applies l nd e -> e_face e nd = Odd -> supported langs (t :: parents) l nd = true /\ select (t :: parents) l nd = Raise.
Proof.
  intros langs t parents l nd e r -> IL A O. split.
  - apply supported_iff. split; [exact IL|]. exists e. split; [now left|exact A].
  - destruct A as (L & K & C & _). unfold get_recursive_implementation. cbn [recursive]. unfold map_supported, get_implementation, found. cbn [filter]. rewrite (proj2 (lang_ok _ _) L), (proj2 (key_ok _ _) K). cbn [andb existsb get_impl]. rewrite C, O. reflexivity.
Qed.
End Selection.

(* ---- hierarchy ---- *)
(* the parents of a class are its ancestors, each once *)
Theorem hierarchy_ancestors : forall bases n c l, parent_architecture bases n c = Some l -> NoDup l /\ forall d, In d l <-> ancestor bases (bases c) d.
Proof.
  intros bases n c l E. destruct (create_spec _ _ _ _ _ E (NoDup_nil nat)) as (ND & (new & -> & A) & B & C); [intros ? ? []|]. split; [exact ND|]. intro d. split; [exact (A d)|]. intro X. induction X as [d Hd|d b X IH Hb]; [exact (B d Hd)|exact (C d b IH Hb)].
Qed.
(* and are found when the ancestors are finitely many, whatever the cycles *)
Theorem hierarchy_ends : forall bases U c, incl (bases c) U -> (forall d b, In d U -> In b (bases d) -> In b U) -> exists l, parent_architecture bases (length U + 2) c = Some l.
Proof.
  intros bases U c I CU. unfold parent_architecture. destruct (create_proc_hierarchy bases (length U + 2) (bases c) []) as [l|] eqn:E; [now exists l|]. exfalso. apply (create_ends bases U CU (length U + 2) (bases c) [] I); [intros ? []|constructor|cbn; lia|exact E].
Qed.
(* when all paths to a class have the same length, each class comes before its bases *)
Theorem hierarchy_levels : forall bases (lev : nat -> nat) n c l, (forall d b, In b (bases d) -> lev b = S (lev d)) -> parent_architecture bases n c = Some l -> forall d b, In d l -> In b (bases d) -> precedes l d b.
Proof.
  intros bases lev n c l G E d b Hd Hb. apply (sorted_precedes lev).
  - eapply (create_levels bases lev G n (S (lev c))); [exact E| |intros ? []|constructor]. intros b' Hb'. now apply G.
  - exact Hd.
  - destruct (hierarchy_ancestors _ _ _ _ E) as [_ A]. apply A. eapply anc_step; [apply A; exact Hd|exact Hb].
  - rewrite (G d b Hb). lia.
Qed.
(* A; C(A); B(C); D(B, A): the table of A is searched before that of its subclass C, for D and not for B *)
Definition wide (c : nat) : list nat := match c with 1 => [0] | 2 => [1] | 3 => [2; 0] | _ => [] end.
Theorem hierarchy_refuted : parent_architecture wide 6 3 = Some [2; 0; 1] /\ parent_architecture wide 6 2 = Some [1; 0] /\ In 0 (wide 1).
Proof. repeat split; now left. Qed.
(* what C redefines of A is then not what D gets *)
Theorem redefinition_refuted : forall (node impl lang key : Type) lang_eqb key_eqb (key_of : node -> key), (forall a b, lang_eqb a b = true <-> a = b) -> (forall a b, key_eqb a b = true <-> a = b) ->
  forall (tables : nat -> list (entry node impl lang key)) l nd a c, tables 0 = [a] -> tables 1 = [c] -> tables 2 = [] -> tables 3 = [] -> strong node impl lang key key_of l nd a -> strong node impl lang key key_of l nd c -> e_face a nd <> Odd -> e_face c nd <> Odd ->
  get_recursive_implementation node impl lang key lang_eqb key_eqb key_of (map tables [3; 2; 0; 1]) l nd = Sel (e_impl a) /\ get_recursive_implementation node impl lang key lang_eqb key_eqb key_of (map tables [2; 1; 0]) l nd = Sel (e_impl c).
Proof.
  intros node impl lang key lang_eqb key_eqb key_of LO KO tables l nd a c T0 T1 T2 T3 SA SC OA OC. cbn [map]. rewrite T0, T1, T2, T3. split; apply (selection_first _ _ _ _ _ _ _ LO KO).
  - intros e [<-|[<-|[]]]; assumption.
  - left. exists a. split; [|reflexivity]. exists [], [c]. split; [reflexivity|]. split; [exact SA|intros y []].
  - intros e [<-|[<-|[]]]; assumption.
  - left. exists c. split; [|reflexivity]. exists [], [a]. split; [reflexivity|]. split; [exact SC|intros y []].
Qed.
(* the instance of a target is that of the first request, whatever is asked later *)
Theorem instance_refuted : forall (A : Type) m c (a1 a2 : A), snd (get_target_instance (fst (get_target_instance m c a1)) c a2) = snd (get_target_instance m c a1).
Proof.
  intros A m c a1 a2. unfold get_target_instance at 2 3. destruct (find (fun x => fst x =? c) m) as [[k a]|] eqn:F; cbn [fst snd]; unfold get_target_instance; [now rewrite F|]. cbn [find fst]. now rewrite Nat.eqb_refl.
Qed.
(* requests for distinct classes are independent *)
Theorem instance_other : forall (A : Type) m c d (a1 a2 : A), c <> d -> snd (get_target_instance (fst (get_target_instance m c a1)) d a2) = snd (get_target_instance m d a2).
Proof.
  intros A m c d a1 a2 NE. unfold get_target_instance at 2. destruct (find (fun x => fst x =? c) m) as [[k a]|] eqn:F; cbn [fst]; [reflexivity|]. unfold get_target_instance. cbn [find fst]. rewrite (proj2 (Nat.eqb_neq c d) NE). destruct (find (fun x => fst x =? d) m) as [[k a]|]; reflexivity.
Qed.

(* ---- predicates on formats ---- *)
Section Formats.
Variable fmt : Type.
Variable feqb : fmt -> fmt -> bool.
Hypothesis feq : forall a b, feqb a b = true <-> a = b.
Variables (exact any_fixed : fmt) (is_fixed : fmt -> bool).
Lemma tuple_eq : forall a b, tuple_eqb fmt feqb a b = true <-> a = b.
Proof.
  induction a as [|x a IH]; intros [|y b]; cbn; try (split; [discriminate|discriminate]); [tauto|]. rewrite andb_true_iff, feq, IH. split; [intros [-> ->]; reflexivity|intro E; injection E as -> ->; auto].
Qed.
Theorem strict_match : forall ts args, truthy (type_strict_match fmt feqb ts args) = true <-> ts = args.
Proof. intros ts args. unfold type_strict_match. rewrite <- tuple_eq. destruct (tuple_eqb fmt feqb ts args); cbn; tauto. Qed.
Theorem or_list_match : forall tl args, truthy (type_strict_match_or_list fmt feqb tl args) = true <-> In args tl.
Proof.
  intros tl args. unfold type_strict_match_or_list. assert (E : existsb (fun ts => tuple_eqb fmt feqb ts args) tl = true <-> In args tl).
  { rewrite existsb_exists. split; [intros (x & H & E); apply tuple_eq in E; now subst|intro H; exists args; split; [exact H|now apply tuple_eq]]. }
  rewrite <- E. destruct (existsb (fun ts => tuple_eqb fmt feqb ts args) tl); cbn; tauto.
Qed.
Lemma fold_false : forall (A : Type) (f : A -> bool) l, fold_left (fun acc v => acc && f v) l false = false.
Proof. intros A f. induction l as [|x l IH]; [reflexivity|exact IH]. Qed.
Lemma fold_forallb : forall (A : Type) (f : A -> bool) l, fold_left (fun acc v => acc && f v) l true = forallb f l.
Proof. intros A f. induction l as [|x l IH]; [reflexivity|]. cbn. destruct (f x); [exact IH|apply fold_false]. Qed.
Lemma combine_forall2 : forall (A B : Type) (P : A -> B -> Prop) (f : A * B -> bool), (forall a b, f (a, b) = true <-> P a b) -> forall l m, length l = length m -> (forallb f (combine l m) = true <-> Forall2 P l m).
Proof.
  intros A B P f FP. induction l as [|a l IH]; intros [|b m] L; cbn in *; try discriminate; [split; constructor|]. rewrite andb_true_iff, FP, IH by congruence. split; [intros [X Y]; now constructor|intro X; inversion X; auto].
Qed.
(* the custom match accepts the tuples of the right length whose formats are all accepted *)
Theorem custom_match : forall w fs args, (truthy (type_custom_match fmt w fs args) = true <-> Forall2 (fun (f : fmt -> bool) a => f a = true) fs args) /\ (truthy (type_custom_match fmt w fs args) = true -> type_custom_match fmt w fs args = Match w).
Proof.
  intros w fs args. unfold type_custom_match. destruct (Nat.eqb (length fs) (length args)) eqn:L.
  - apply Nat.eqb_eq in L. rewrite (fold_forallb _ (fun v : (fmt -> bool) * fmt => fst v (snd v))). rewrite <- (combine_forall2 _ _ _ (fun v : (fmt -> bool) * fmt => fst v (snd v))) by (try exact L; intros; cbn; tauto). destruct (forallb _ (combine fs args)); cbn; split; auto; try tauto. discriminate.
  - cbn. split; [|discriminate]. split; [discriminate|]. intro F. apply Nat.eqb_neq in L. exfalso. apply L. clear L. induction F; cbn; congruence.
Qed.
Theorem list_match : forall ts args, length ts = length args -> (truthy (type_strict_match_list fmt feqb ts args) = true <-> Forall2 (fun l a => In a l) ts args).
Proof.
  induction ts as [|l ts IH]; intros [|a args] L; cbn in *; try discriminate; [split; constructor|]. assert (E : existsb (feqb a) l = true <-> In a l) by (rewrite existsb_exists; split; [intros (x & H & E); apply feq in E; now subst|intro H; exists a; split; [exact H|now apply feq]]).
  destruct (existsb (feqb a) l); [rewrite IH by congruence; split; [intro F; constructor; tauto|intro F; now inversion F]|]. cbn. split; [discriminate|]. intro F. inversion F. subst. apply E in H2. discriminate H2.
Qed.
Theorem relax_match : forall ts args, length ts = length args -> (truthy (type_relax_match fmt feqb exact ts args) = true <-> Forall2 (fun t a => t = a \/ a = exact) ts args).
Proof.
  intros ts args L. unfold type_relax_match. rewrite (fold_forallb _ (fun v : fmt * fmt => feqb (fst v) (snd v) || feqb (snd v) exact)). rewrite <- (combine_forall2 _ _ _ (fun v : fmt * fmt => feqb (fst v) (snd v) || feqb (snd v) exact)) by (try exact L; intros; cbn [fst snd]; rewrite orb_true_iff, !feq; tauto). destruct (forallb _ (combine ts args)); cbn; tauto.
Qed.
(* these two do not look at the number of operands: what they accept they accept with more, and with fewer *)
Theorem list_arity_refuted : forall ts args more k, length ts = length args -> truthy (type_strict_match_list fmt feqb ts args) = true ->
  truthy (type_strict_match_list fmt feqb ts (args ++ more)) = true /\ truthy (type_strict_match_list fmt feqb ts (firstn k args)) = true.
Proof.
  induction ts as [|l ts IH]; intros [|a args] more k L T; cbn in L; try discriminate.
  - split; destruct more; try reflexivity; now destruct k.
  - cbn in T. destruct (existsb (feqb a) l) eqn:E; [|discriminate T]. injection L as L. cbn [app type_strict_match_list]. rewrite E. split; [apply (IH args more 0 L T)|]. destruct k; cbn [firstn type_strict_match_list]; [reflexivity|]. rewrite E. apply (IH args more k L T).
Qed.
Theorem relax_arity_refuted : forall ts args more k, length ts = length args -> truthy (type_relax_match fmt feqb exact ts args) = true ->
  truthy (type_relax_match fmt feqb exact ts (args ++ more)) = true /\ truthy (type_relax_match fmt feqb exact ts (firstn k args)) = true.
Proof.
  intros ts args more k. unfold type_relax_match. rewrite !(fold_forallb _ (fun v : fmt * fmt => feqb (fst v) (snd v) || feqb (snd v) exact)). revert args k. induction ts as [|t ts IH]; intros [|a args] k L T; cbn in L; try discriminate.
  - cbn. destruct k; cbn; auto.
  - cbn [app combine forallb fst snd] in *. destruct (feqb t a || feqb a exact) eqn:E; [|discriminate T]. injection L as L. cbn [andb] in *. split; [apply (IH args 0 L T)|]. destruct k; cbn [firstn combine forallb fst snd]; [reflexivity|]. rewrite E. apply (IH args k L T).
Qed.
(* the match of fixed-point formats does not look at the first format, which is that of the result *)
Theorem fixed_first_refuted : forall t t' r r' ts args, type_fixed_match fmt feqb any_fixed is_fixed (t :: ts) (r :: args) = type_fixed_match fmt feqb any_fixed is_fixed (t' :: ts) (r' :: args).
Proof. intros. unfold type_fixed_match. cbn [combine]. destruct (combine ts args); reflexivity. Qed.
End Formats.

(* ---- samples ---- *)
(* a target with a weak implementation (10) of operation 0 and a strong one (11) of operation 1,
   its parent with strong implementations 20 and 21 of both, in language 0; 30 in language 1 *)
Definition ent (l k : nat) (f : answer) (i : nat) : entry nat nat nat nat := mkE l k (fun _ => true) (fun _ => f) i.
Definition self_table := [ent 0 0 (Match true) 10; ent 0 1 Yes 11; ent 1 2 Yes 30; ent 0 4 No 12].
Definition parent_table := [ent 0 0 (Match false) 20; ent 0 1 Yes 21; ent 0 3 (Match true) 22].
Definition sel l nd := get_recursive_implementation nat nat nat nat Nat.eqb Nat.eqb (fun x => x) [self_table; parent_table] l nd.
Definition sup l nd := is_supported_operation nat nat nat nat Nat.eqb Nat.eqb (fun x => x) [0] [self_table; parent_table] l nd.
Example sample_selected : sel 0 0 = Sel 20 /\ sel 0 1 = Sel 11 /\ sel 0 3 = Sel 22 /\ sel 0 4 = NoImpl /\ sel 1 2 = Sel 30.
Proof. repeat split. Qed.
Example sample_supported : sup 0 0 = true /\ sup 0 1 = true /\ sup 0 3 = true /\ sup 0 4 = false /\ sup 1 2 = false.
Proof. repeat split. Qed.
Example sample_sane : forall nd e, In e (concat [self_table; parent_table]) -> e_face e nd <> Odd.
Proof. intros nd e H. cbn in H. repeat (destruct H as [<-|H]; [discriminate|]). destruct H. Qed.
Example sample_unregistered : sup 1 2 = false /\ exists i, sel 1 2 = Sel i.
Proof.
  apply (unregistered_refuted nat nat nat nat Nat.eqb Nat.eqb (fun x => x) Nat.eqb_eq Nat.eqb_eq [0] [self_table; parent_table] 1 2 (ent 1 2 Yes 30) (sample_sane 2)); [intros [X|[]]; discriminate X|cbn; auto|]. repeat split. discriminate.
Qed.
Example sample_odd : is_supported_operation nat nat nat nat Nat.eqb Nat.eqb (fun x => x) [0] [[ent 0 5 Odd 1]] 0 5 = true /\ get_recursive_implementation nat nat nat nat Nat.eqb Nat.eqb (fun x => x) [[ent 0 5 Odd 1]] 0 5 = Raise.
Proof. split; reflexivity. Qed.
(* a diamond with equal paths: 3(1, 2), 1(0), 2(0), and 4(3) *)
Definition diamond (c : nat) : list nat := match c with 1 => [0] | 2 => [0] | 3 => [1; 2] | 4 => [3] | _ => [] end.
Definition diamond_level (c : nat) : nat := match c with 0 => 3 | 1 | 2 => 2 | 3 => 1 | _ => 0 end.
Example sample_diamond : parent_architecture diamond 6 4 = Some [3; 1; 2; 0] /\ forall d b, In b (diamond d) -> diamond_level b = S (diamond_level d).
Proof. split; [reflexivity|]. intros d b H. destruct d as [|[|[|[|[|d]]]]]; cbn in H; repeat (destruct H as [<-|H]; [reflexivity|]); destruct H. Qed.
Example sample_instance : snd (get_target_instance (fst (get_target_instance [] 3 7)) 3 8) = 7 /\ snd (get_target_instance (fst (get_target_instance [] 3 7)) 4 8) = 8.
Proof. split; reflexivity. Qed.
(* formats as numbers, 9 the exact one *)
Example sample_formats : type_strict_match nat Nat.eqb [1; 2] [1; 2] = Yes /\ type_strict_match nat Nat.eqb [1; 2] [1; 3] = No /\ type_strict_match_list nat Nat.eqb [[1]; [2; 3]] [1; 3] = Yes /\ type_strict_match_list nat Nat.eqb [[1]; [2; 3]] [1; 4] = No
  /\ type_strict_match_list nat Nat.eqb [[1]; [2; 3]] [1; 3; 4; 4] = Yes /\ type_relax_match nat Nat.eqb 9 [1; 2] [9; 2] = Yes /\ type_relax_match nat Nat.eqb 9 [1; 9] [1; 2] = No
  /\ type_custom_match nat true [Nat.leb 2; Nat.eqb 1] [3; 1] = Match true /\ type_custom_match nat true [Nat.leb 2; Nat.eqb 1] [3] = No /\ type_strict_match_or_list nat Nat.eqb [[1]; [2; 3]] [2; 3] = Yes.
Proof. repeat split. Qed.
Example sample_fixed : type_fixed_match nat Nat.eqb 8 (Nat.leb 5) [1; 8] [7; 6] = Answer Yes /\ type_fixed_match nat Nat.eqb 8 (Nat.leb 5) [1; 8] [7; 4] = Answer No /\ type_fixed_match nat Nat.eqb 8 (Nat.leb 5) [1] [7] = Answer Odd /\ type_fixed_match nat Nat.eqb 8 (Nat.leb 5) [] [] = Raised.
Proof. repeat split. Qed.

Print Assumptions selection_first.
Print Assumptions selection_none.
Print Assumptions supported_iff.
Print Assumptions supported_selected.
Print Assumptions unregistered_refuted.
Print Assumptions far_parent.
Print Assumptions odd_refuted.
Print Assumptions hierarchy_ancestors.
Print Assumptions hierarchy_ends.
Print Assumptions hierarchy_levels.
Print Assumptions hierarchy_refuted.
Print Assumptions redefinition_refuted.
Print Assumptions instance_refuted.
Print Assumptions instance_other.
Print Assumptions strict_match.
Print Assumptions or_list_match.
Print Assumptions custom_match.
Print Assumptions list_match.
Print Assumptions relax_match.
Print Assumptions list_arity_refuted.
Print Assumptions relax_arity_refuted.
Print Assumptions fixed_first_refuted.
