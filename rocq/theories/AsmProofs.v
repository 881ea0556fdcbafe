(* Lemmas on register allocation. *)
From Coq Require Import List Arith Bool Lia.
From Verif Require Import AsmModel AsmSpec.
Import ListNotations.

Definition get (m : amap) (r : nat) : list areg := match find m r with Some t => t | None => [] end.
Definition ext (m m' : amap) : Prop := forall k u, find m k = Some u -> find m' k = Some u.
Lemma ext_refl : forall m, ext m m. Proof. intros m k u H. exact H. Qed.
Lemma ext_trans : forall a b c, ext a b -> ext b c -> ext a c. Proof. intros a b c A B k u H. apply B, A, H. Qed.
Lemma get_ext : forall m m' r t, ext m m' -> find m r = Some t -> get m' r = t.
Proof. intros m m' r t E H. unfold get. now rewrite (E r t H). Qed.

Section Maps.
Variable virt : nat -> list areg.

Lemma allocatable_ok : forall m r m' t, allocatable virt m r = (m', t) -> ext m m' /\ find m' r = Some t.
Proof.
  intros m r m' t H. unfold allocatable in H. destruct (find m r) as [u|] eqn:F; injection H as <- <-; split.
  - apply ext_refl.
  - exact F.
  - intros k u K. cbn [find]. destruct (Nat.eqb r k) eqn:E; [|exact K]. apply Nat.eqb_eq in E. subst k. congruence.
  - cbn [find]. now rewrite Nat.eqb_refl.
Qed.
Lemma allocatables_ok : forall l m m' u, allocatables virt m l = (m', u) -> ext m m' /\
  forall M, ext m' M -> u = flat_map (get M) l.
Proof.
  induction l as [|r q IH]; intros m m' u H; cbn [allocatables] in H.
  - injection H as <- <-. split; [apply ext_refl|reflexivity].
  - destruct (allocatable virt m r) as [m1 t] eqn:A. destruct (allocatables virt m1 q) as [m2 v] eqn:B. injection H as <- <-.
    destruct (allocatable_ok _ _ _ _ A) as [E1 F1]. destruct (IH _ _ _ B) as [E2 F2]. split; [eapply ext_trans; eassumption|].
    intros M EM. cbn [flat_map]. rewrite <- (F2 M EM). f_equal. symmetry. eapply get_ext; [|exact F1]. eapply ext_trans; eassumption.
Qed.

Definition noreg (n : node nat) : Prop := match n with Assign _ (VReg _) | Assign _ VLeaf => False | _ => True end.
Lemma insn_ok : forall m n m' i, insn_from_node virt m n = Ok (m', i) -> ext m m' /\ noreg n /\ straight n /\
  forall M, ext m' M -> i_def i = flat_map (get M) (writes n) /\ i_use i = flat_map (get M) (reads n).
Proof.
  intros m n m' i H. destruct n as [d v|l|k|b|c bs|]; try discriminate H.
  - cbn [insn_from_node] in H. destruct (allocatable virt m d) as [m1 t] eqn:A. destruct (allocatable_ok _ _ _ _ A) as [E1 F1].
    destruct v as [c|r|op l|]; try discriminate H.
    + injection H as <- <-. split; [exact E1|]. split; [exact I|]. split; [exact I|]. intros M EM. cbn [writes reads flat_map i_def i_use]. rewrite app_nil_r.
      split; [symmetry; eapply get_ext; eassumption|reflexivity].
    + destruct (allocatables virt m1 (src_regs l)) as [m2 u] eqn:B. injection H as <- <-. destruct (allocatables_ok _ _ _ _ B) as [E2 F2].
      split; [eapply ext_trans; eassumption|]. split; [exact I|]. split; [exact I|]. intros M EM. cbn [writes reads flat_map i_def i_use]. rewrite app_nil_r.
      split; [symmetry; eapply get_ext; [eapply ext_trans; [exact E2|exact EM]|exact F1]|]. apply F2. exact EM.
  - cbn [insn_from_node] in H. destruct (allocatables virt m (src_regs l)) as [m2 u] eqn:B. injection H as <- <-. destruct (allocatables_ok _ _ _ _ B) as [E2 F2].
    split; [exact E2|]. split; [exact I|]. split; [exact I|]. intros M EM. split; [reflexivity|]. apply F2. exact EM.
Qed.

Definition same_insn (M : amap) (n : node nat) (i : insn) : Prop := i_def i = flat_map (get M) (writes n) /\ i_use i = flat_map (get M) (reads n).
Lemma nodes_ok : forall b l t t', Forall straight l -> translate_nodes virt b t l = Ok t' -> exists is, t_insns t' = t_insns t ++ is /\ ext (t_map t) (t_map t') /\
  t_done t' = t_done t /\ t_open t' = t_open t /\ Forall noreg l /\ forall M, ext (t_map t') M -> Forall2 (same_insn M) l is.
Proof.
  induction l as [|n q IH]; intros t t' S H; cbn [translate_nodes] in H.
  - injection H as <-. exists []. rewrite app_nil_r. split; [reflexivity|]. split; [apply ext_refl|]. split; [reflexivity|]. split; [reflexivity|]. split; constructor.
  - inversion S as [|? ? Sn Sq]; subst. destruct (translate_node virt b t n) as [t1|e] eqn:T; [|discriminate H]. cbn [bind] in H.
    assert (Q : exists m i, insn_from_node virt (t_map t) n = Ok (m, i) /\ t1 = emit t m i).
    { destruct n; try contradiction Sn; cbn [translate_node] in T; destruct (insn_from_node virt (t_map t) _) as [[m i]|e] eqn:E; try discriminate T; cbn [bind] in T; injection T as <-; eauto. }
    destruct Q as (m & i & E & ->). destruct (insn_ok _ _ _ _ E) as (E1 & NR & _ & F1). destruct (IH _ _ Sq H) as (is & A & B & C & D & G & K). cbn [emit t_insns t_map t_done t_open] in *.
    exists (i :: is). rewrite A, <- app_assoc. split; [reflexivity|]. split; [eapply ext_trans; eassumption|]. split; [exact C|]. split; [exact D|]. split; [constructor; assumption|].
    intros M EM. constructor; [|apply K; exact EM]. apply F1. eapply ext_trans; eassumption.
Qed.
End Maps.

Section Alloc.
Variable W : Type.
Variable cst : nat -> nat -> list W.
Variable sem : nat -> nat -> list (list W) -> list W.
Variable width : nat -> nat.
Variable color : areg -> option nat.
Variable M : amap.
Hypothesis SZ : sized W cst sem.

Lemma colors_ok : forall l ids, colors color l = Ok ids <-> Forall2 (fun x c => color x = Some c) l ids.
Proof.
  induction l as [|x q IH]; intros ids; cbn [colors]; split; intro H.
  - injection H as <-. constructor.
  - inversion H. reflexivity.
  - destruct (color x) as [c|] eqn:C; [|discriminate H]. destruct (colors color q) as [t|] eqn:T; [|discriminate H]. injection H as <-. constructor; [exact C|]. now apply IH.
  - inversion H as [|? c ? t C T]; subst. rewrite C. apply IH in T. now rewrite T.
Qed.
Lemma F2_nodup : forall l ids, Forall2 (fun x c => color x = Some c) l ids -> NoDup l -> (forall x y, In x l -> In y l -> x <> y -> color x <> color y) -> NoDup ids.
Proof.
  induction 1 as [|x c q t C F IH]; intros N D; [constructor|]. inversion N as [|? ? NI Nq]; subst. constructor.
  - intro I. assert (exists y, In y q /\ color y = Some c) as (y & Iy & Cy). { clear -F I. induction F as [|a b q t A F IH]; [destruct I|]. destruct I as [->|I]; [exists a; split; [now left|exact A]|]. destruct (IH I) as (y & ? & ?). exists y. split; [now right|assumption]. }
    apply (D x y); [now left|now right|intro; subst; contradiction|congruence].
  - apply IH; [exact Nq|]. intros a b A B. apply D; now right.
Qed.
Lemma F2_in : forall l ids c, Forall2 (fun x c => color x = Some c) l ids -> In c ids -> exists x, In x l /\ color x = Some c.
Proof. intros l ids c F I. induction F as [|a b q t A F IH]; [destruct I|]. destruct I as [->|I]; [exists a; split; [now left|exact A]|]. destruct (IH I) as (y & ? & ?). exists y. split; [now right|assumption]. Qed.

Lemma pupds_other : forall ids w (s : nat -> W) k, ~ In k ids -> pupds W s ids w k = s k.
Proof.
  induction ids as [|i q IH]; intros w s k N; [reflexivity|]. destruct w as [|x t]; [reflexivity|]. cbn [pupds]. rewrite IH by (intro; apply N; now right).
  destruct (Nat.eqb k i) eqn:E; [|reflexivity]. apply Nat.eqb_eq in E. exfalso. apply N. now left.
Qed.
Lemma pupds_others : forall l ids w (s : nat -> W), (forall k, In k l -> ~ In k ids) -> map (pupds W s ids w) l = map s l.
Proof. intros l ids w s H. apply map_ext_in. intros k I. apply pupds_other, H, I. Qed.
Lemma pupds_same : forall ids w (s : nat -> W), NoDup ids -> length w = length ids -> map (pupds W s ids w) ids = w.
Proof.
  induction ids as [|i q IH]; intros w s N L; destruct w as [|x t]; try discriminate L; [reflexivity|]. inversion N as [|? ? NI Nq]; subst. cbn [pupds map]. f_equal.
  - rewrite pupds_other by exact NI. now rewrite Nat.eqb_refl.
  - apply IH; [exact Nq|]. now injection L.
Qed.

Definition agree (rs : nat -> list W) (ps : nat -> W) (r : nat) : Prop := exists ids, colors color (get M r) = Ok ids /\ map ps ids = rs r.

Lemma physical_get : forall r ids, physical color M r = Ok ids -> colors color (get M r) = Ok ids.
Proof. intros r ids H. unfold physical in H. unfold get. destruct (find M r); [exact H|discriminate H]. Qed.
Lemma args_ok : forall rs ps l l', phys_operands color M l = Ok l' -> (forall r, In r (flat_map (fun o => match o with OReg r => [r] | _ => [] end) l) -> agree rs ps r) ->
  map (parg W cst ps) l' = map (arg W cst rs) l.
Proof.
  intros rs ps. induction l as [|o q IH]; intros l' H A; cbn [phys_operands] in H; [injection H as <-; reflexivity|].
  destruct (phys_operand color M o) as [p|] eqn:P; [|discriminate H]. cbn [bind] in H. destruct (phys_operands color M q) as [t|] eqn:T; [|discriminate H]. cbn [bind] in H. injection H as <-.
  cbn [map]. f_equal; [|apply IH; [reflexivity|]; intros r I; apply A; cbn [flat_map]; apply in_or_app; now right].
  destruct o as [r|c|]; cbn [phys_operand] in P.
  - destruct (physical color M r) as [ids|] eqn:E; [|discriminate P]. cbn [bind] in P. injection P as <-. cbn [parg arg].
    destruct (A r) as (ids' & C & V); [cbn [flat_map]; now left|]. apply physical_get in E. congruence.
  - injection P as <-. reflexivity.
  - discriminate P.
Qed.

Lemma live_alive : forall out outA, (forall r x, In r out -> In x (get M r) -> In x outA) ->
  forall l is, Forall2 (same_insn M) l is -> apart (get M) l out -> forall r x, live l out r -> In x (get M r) -> alive is outA x.
Proof.
  intros out outA O l is F. induction F as [|n i q t [D U] F IH]; intros AP r x L I; cbn [live alive] in *; [eapply O; eassumption|].
  destruct AP as [AP AQ]. destruct L as [L|[NW L]].
  - left. rewrite U. apply in_flat_map. exists r. split; assumption.
  - right. split; [|eapply IH; eassumption]. rewrite D. intro J. apply in_flat_map in J. destruct J as (d & Wd & Xd).
    apply (AP d r x Wd); try assumption. intro; subst; contradiction.
Qed.

Theorem run_ok : forall out outA, (forall r x, In r out -> In x (get M r) -> In x outA) -> (forall r, NoDup (get M r)) -> (forall r, width r = length (get M r)) ->
  forall l is pl, Forall2 (same_insn M) l is -> Forall straight l -> Forall noreg l -> phys_nodes color M l = Ok pl -> apart (get M) l out -> valid color is outA ->
  forall rs ps lg, (forall r, live l out r -> agree rs ps r) ->
  snd (run W cst sem width (rs, lg) l) = snd (prun W cst sem (ps, lg) pl) /\
  forall r, In r out -> agree (fst (run W cst sem width (rs, lg) l)) (fst (prun W cst sem (ps, lg) pl)) r.
Proof.
  intros out outA O ND WD l is pl F. revert pl. induction F as [|n i q t [D U] F IH]; intros pl ST NR P AP V rs ps lg A; cbn [phys_nodes] in P.
  - injection P as <-. split; [reflexivity|]. exact A.
  - inversion ST as [|? ? Sn Sq]; subst. inversion NR as [|? ? Nn Nq]; subst. destruct (phys_node color M n) as [pn|] eqn:PN; [|discriminate P]. cbn [bind] in P.
    destruct (phys_nodes color M q) as [pq|] eqn:PQ; [|discriminate P]. cbn [bind] in P. injection P as <-. destruct AP as [AP AQ]. destruct V as [V VQ].
    pose proof (live_alive out outA O q t F AQ) as LA. unfold run, prun. cbn [fold_left].
    assert (WR : forall d ids w, writes n = [d] -> colors color (get M d) = Ok ids -> length w = length (get M d) ->
      forall r, live q out r -> agree (upd W rs d w) (pupds W ps ids w) r).
    { intros d ids w Wn C LW r L. pose proof (proj1 (colors_ok _ _) C) as CF. rewrite Wn in D, AP. cbn [flat_map] in D. rewrite app_nil_r in D.
      assert (LI : length ids = length (get M d)) by (clear -CF; induction CF; cbn; congruence).
      unfold agree, upd. destruct (Nat.eqb r d) eqn:E.
      - apply Nat.eqb_eq in E. subst r. exists ids. split; [exact C|]. apply pupds_same; [|congruence]. eapply F2_nodup; [exact CF|apply ND|].
        intros x y X Y N. apply (V y x); rewrite ?D; auto.
      - apply Nat.eqb_neq in E. destruct (A r) as (ids' & C' & V'). { cbn [live]. right. rewrite Wn. split; [|exact L]. intros [->|[]]. contradiction. }
        exists ids'. split; [exact C'|]. rewrite <- V'. apply pupds_others. intros k K K'. apply colors_ok in C'.
        destruct (F2_in _ _ _ C' K) as (x & X & Cx). destruct (F2_in _ _ _ CF K') as (y & Y & Cy).
        assert (x <> y). { intro; subst y. apply (AP d r x); [now left|congruence|exact L|exact Y|exact X]. }
        apply (V y x); [rewrite D; exact Y|right; eapply LA; eassumption|assumption|congruence]. }
    destruct n as [d v|sl|k|b|c bs|]; try contradiction Sn; cbn [phys_node] in PN.
    + destruct (physical color M d) as [ids|] eqn:PD; [|discriminate PN]. cbn [bind] in PN. apply physical_get in PD.
      assert (LI : length ids = width d). { rewrite WD. pose proof (proj1 (colors_ok _ _) PD) as CF. clear -CF. induction CF; cbn; congruence. }
      destruct v as [c|r|op ol|]; try contradiction Nn.
      * injection PN as <-. cbn [step pstep fst snd]. rewrite LI. apply (IH pq Sq Nq eq_refl AQ VQ). apply WR; [reflexivity|exact PD|]. rewrite <- WD. apply SZ.
      * destruct (phys_operands color M ol) as [ol'|] eqn:PO; [|discriminate PN]. cbn [bind] in PN. injection PN as <-. cbn [step pstep fst snd]. rewrite LI.
        rewrite (args_ok rs ps ol ol' PO) by (intros r I; apply A; cbn [live]; left; exact I).
        apply (IH pq Sq Nq eq_refl AQ VQ). apply WR; [reflexivity|exact PD|]. rewrite <- WD. apply SZ.
    + destruct (phys_operands color M sl) as [ol'|] eqn:PO; [|discriminate PN]. cbn [bind] in PN. injection PN as <-. cbn [step pstep fst snd].
      rewrite (args_ok rs ps sl ol' PO) by (intros r I; apply A; cbn [live]; left; exact I).
      apply (IH pq Sq Nq eq_refl AQ VQ). intros r L. apply A. cbn [live]. right. split; [intros []|exact L].
Qed.
End Alloc.

Lemma alive_ret : forall l i out x, i_def i = [] -> i_use i = [] -> (alive (l ++ [i]) out x <-> alive l out x).
Proof. intros l i out x D U. induction l as [|j q IH]; cbn [alive app]; [rewrite D, U; cbn; tauto|tauto]. Qed.
Lemma valid_ret : forall color l i out, i_def i = [] -> i_use i = [] -> valid color (l ++ [i]) out -> valid color l out.
Proof.
  intros color l i out D U. induction l as [|j q IH]; cbn [valid app]; [trivial|]. intros [A B]. split; [|now apply IH].
  intros d x I J. apply A; [exact I|]. destruct J as [J|J]; [now left|]. right. now apply alive_ret.
Qed.

(* maps of the calling convention *)
Lemma put_all_notin : forall l m r, ~ In r (map fst l) -> find (put_all m l) r = find m r.
Proof.
  induction l as [|[k t] q IH]; intros m r N; [reflexivity|]. cbn [put_all]. rewrite IH by (intro; apply N; now right). cbn [find].
  destruct (Nat.eqb k r) eqn:E; [|reflexivity]. apply Nat.eqb_eq in E. exfalso. apply N. now left.
Qed.
Lemma put_all_in : forall l m r t, NoDup (map fst l) -> In (r, t) l -> find (put_all m l) r = Some t.
Proof.
  induction l as [|[k u] q IH]; intros m r t N I; [destruct I|]. inversion N as [|? ? NI Nq]; subst. cbn [put_all]. destruct I as [E|I].
  - injection E as -> ->. rewrite put_all_notin by exact NI. cbn [find]. now rewrite Nat.eqb_refl.
  - now apply IH.
Qed.
Lemma abi_keys : forall l, map fst (abi_map l) = l.
Proof.
  intro l. unfold abi_map. generalize 0. induction l as [|r q IH]; intro s; [reflexivity|]. cbn [length seq map combine fst]. f_equal. apply IH.
Qed.
Lemma abi_nth_from : forall (l : list nat) s k r, nth_error l k = Some r -> In (r, [Phys (s + k)]) (combine l (map (fun i => [Phys i]) (seq s (length l)))).
Proof.
  induction l as [|a q IH]; intros s k r H; destruct k as [|k]; try discriminate H; cbn [length seq map combine].
  - injection H as <-. left. now rewrite Nat.add_0_r.
  - right. rewrite Nat.add_succ_r, <- Nat.add_succ_l. now apply IH.
Qed.
Lemma abi_nth : forall l k r, nth_error l k = Some r -> In (r, [Phys k]) (abi_map l).
Proof. intros l k r H. apply (abi_nth_from l 0 k r H). Qed.
