(* The generated C code computes what the graph means: the simulation. *)
Require Import ZArith String List Bool Arith Lia Permutation.
From Verif Require Import CgenModel CgenSpec CgenProofs CgenSim.
Import ListNotations.
Open Scope string_scope.
Open Scope list_scope.

Definition bnd := list (string * node).
Inductive tr (B : bnd) : cexpr -> node -> Prop :=
| tr_var x n : In (x, n) B -> tr B (EVar x) n
| tr_cst i v : tr B (ECst v) (NCst i v)
| tr_op i op ff t es args : Forall2 (tr B) es args -> tr B (EOp op es) (NOp i op ff t args).

Lemma tr_weaken B B' n : forall e, tr B e n ->
  (forall x m, In (x, m) B -> In m (subs n) -> In (x, m) B') -> tr B' e n.
Proof.
  induction n as [i l t|i v|i op ff t args IH] using node_ind2; intros e H HB; inversion H; subst.
  - apply tr_var, HB; [assumption|left; reflexivity].
  - apply tr_var, HB; [assumption|left; reflexivity].
  - apply tr_cst.
  - apply tr_var, HB; [assumption|apply subs_self].
  - apply tr_op. clear H.
    assert (HB' : forall a, In a args -> forall x m, In (x, m) B -> In m (subs a) -> In (x, m) B').
    { intros a Ha x m Hx Hm. apply HB; [exact Hx|]. apply subs_op. right; exists a; auto. }
    clear HB. match goal with F : Forall2 _ _ _ |- _ => rename F into HF end.
    induction HF as [|e a es args' H1 H2 IHF]; constructor.
    + apply IH; [left; reflexivity|exact H1|]. apply HB'; left; reflexivity.
    + apply IHF; [intros b Hb; apply IH; right; exact Hb|intros b Hb; apply HB'; right; exact Hb].
Qed.
Lemma tr_incl B B' e n : tr B e n -> incl B B' -> tr B' e n.
Proof. intros H I. eapply tr_weaken; [exact H|]. intros x m Hx _. apply I, Hx. Qed.

Definition keep (vs : list nat) (n : node) : bool := negb (is_op n && reads vs n).
Definition kept (vs : list nat) (B : bnd) : bnd := filter (fun p => keep vs (snd p)) B.
Lemma in_kept vs B x n : In (x, n) (kept vs B) <-> In (x, n) B /\ keep vs n = true.
Proof. unfold kept. rewrite filter_In. reflexivity. Qed.
Lemma keep_app us vs n : keep (us ++ vs) n = keep us n && keep vs n.
Proof. unfold keep. rewrite reads_app. destruct (is_op n), (reads us n), (reads vs n); reflexivity. Qed.

Section Main.
  Variable pick : list string -> string -> string.
  Variable order : nat -> nat.
  Variable opsem : string -> list Z -> Z.
  Hypothesis pick_fresh : forall l p, ~ In (pick l p) l.
  Variable PN : node -> Prop.
  Hypothesis HU : forall n m, PN n -> PN m -> nid n = nid m -> n = m.
  Hypothesis HS : forall n m, PN n -> In m (subs n) -> PN m.

  Definition agree (E : env) (B : bnd) (st : store) : Prop :=
    forall x n, In (x, n) B ->
      match n with
      | NVar i _ _ => elook x E = Some (st i)
      | _ => exists v, elook x E = Some (Some v) /\ eval opsem st n = Some v
      end.
  Lemma agree_incl E B B' st : agree E B st -> incl B' B -> agree E B' st.
  Proof. intros H I x n Hx. apply H, I, Hx. Qed.
  Lemma tr_eval E B st : agree E B st -> forall n e, tr B e n -> ceval opsem E e = eval opsem st n.
  Proof.
    intros HA. induction n as [i l t|i v|i op ff t args IH] using node_ind2; intros e H; inversion H; subst.
    - match goal with X : In _ B |- _ => specialize (HA _ _ X); cbn in HA end. cbn [ceval eval]. rewrite HA. destruct (st i); reflexivity.
    - match goal with X : In _ B |- _ => specialize (HA _ _ X); cbn in HA end. destruct HA as (w & H1 & H2). cbn [ceval eval]. rewrite H1. exact (eq_sym H2).
    - reflexivity.
    - match goal with X : In _ B |- _ => specialize (HA _ _ X); cbn [is_op] in HA end. destruct HA as (w & H1 & H2). rewrite H2. cbn [ceval]. rewrite H1. reflexivity.
    - cbn [ceval eval]. f_equal. f_equal. match goal with F : Forall2 _ _ _ |- _ => rename F into HF end. clear H.
      induction HF as [|e a es args' H1 H2 IHF]; [reflexivity|]. cbn [map]. f_equal.
      + apply IH; [left; reflexivity|exact H1].
      + apply IHF. intros b Hb. apply IH; right; exact Hb.
  Qed.

  Record sinv (g : gst) (K D : list node) (B : bnd) : Prop := mksinv {
    s_mne : memo g <> [];
    s_sne : scopes g <> [];
    s_KP : forall n, In n K -> PN n;
    s_DP : forall n, In n D -> PN n /\ is_cst n = false;
    s_K : forall n, PN n -> is_cst n = false -> memb n D = false -> (memb n K = true <-> has g (nid n));
    s_tr : forall n c, PN n -> memb n D = false -> mlookup (nid n) (memo g) = Some c -> tr B (cget c) n;
    s_B : forall x n, In (x, n) B -> In x (concat (scopes g)) /\ PN n;
    s_fun : forall x n m, In (x, n) B -> In (x, m) B -> n = m;
    s_var : forall x y n, In (x, n) B -> In (y, n) B -> is_var n = true -> x = y;
    s_loc : forall x n, In (x, n) B -> is_local n = true -> has g (nid n);
    s_in : forall i t, PN (NVar i false t) -> In (t, NVar i false t) B;
    s_cl : forall n m, PN n -> memb n D = false -> has g (nid n) -> In m (subs n) ->
           is_cst m = false -> memb m D = false -> has g (nid m);
    s_Bc : forall x n, In (x, n) B -> is_cst n = false }.

  Lemma memb_In n l : PN n -> (forall m, In m l -> PN m) -> memb n l = true -> In n l.
  Proof.
    intros HP HL H. apply memb_iff in H as (m & Hm & E). replace n with m; [exact Hm|]. apply HU; auto.
  Qed.
  Lemma sinv_K g K K' D B : sinv g K D B -> (forall n, In n K' -> PN n) -> (forall n, memb n K' = memb n K) -> sinv g K' D B.
  Proof.
    intros [h1 h2 h3 h4 h5 h6 h7 h8 h9 h10 h11 h12 h13] HP HK. constructor; auto.
    intros n Hn Hc Hd. rewrite HK. apply h5; assumption.
  Qed.
  Lemma cst_not_dead g K D B n : sinv g K D B -> PN n -> is_cst n = true -> memb n D = false.
  Proof.
    intros HI HP HC. destruct (memb n D) eqn:E; [|reflexivity].
    pose proof (memb_In n D HP (fun m Hm => proj1 (s_DP _ _ _ _ HI m Hm)) E) as Hin.
    destruct (s_DP _ _ _ _ HI n Hin). congruence.
  Qed.
  (* dropping what depends on assigned variables *)
  Lemma sinv_stale g K D B vs : sinv g K D B -> sinv g K (D ++ stale K vs) (kept vs B).
  Proof.
    intros HI. destruct HI as [h1 h2 h3 h4 h5 h6 h7 h8 h9 h10 h11 h12 h13].
    assert (Hmem : forall n, memb n (D ++ stale K vs) = false -> memb n D = false /\ memb n (stale K vs) = false).
    { intros n H. rewrite memb_app in H. apply orb_false_iff in H. exact H. }
    constructor; auto.
    - intros n Hn. apply in_app_iff in Hn as [Hn|Hn]; [auto|]. unfold stale in Hn. apply filter_In in Hn as [Hn Hs].
      split; [auto|]. destruct n; [reflexivity|discriminate|reflexivity].
    - intros n Hn Hc Hd. apply h5; auto. apply Hmem; exact Hd.
    - intros n c Hn Hd Hc. destruct (Hmem n Hd) as [Hd1 Hd2].
      pose proof (h6 n c Hn Hd1 Hc) as HT.
      destruct (is_op n) eqn:Eo.
      + assert (HK : In n K).
        { apply memb_In; auto. apply h5; auto; [destruct n; try discriminate; reflexivity|]. unfold has; congruence. }
        assert (HR : reads vs n = false).
        { destruct (reads vs n) eqn:Er; [|reflexivity]. exfalso.
          rewrite (memb_in n (stale K vs)) in Hd2; [discriminate|]. apply filter_In. split; [exact HK|]. rewrite Eo, Er. reflexivity. }
        eapply tr_weaken; [exact HT|]. intros x m Hx Hm. apply in_kept. split; [exact Hx|].
        unfold keep. destruct (reads vs m) eqn:Em; [|rewrite andb_false_r; reflexivity].
        rewrite (reads_sub vs n m Hm Em) in HR. discriminate.
      + eapply tr_weaken; [exact HT|]. intros x m Hx Hm. apply in_kept. split; [exact Hx|].
        destruct n as [i l t|i v|]; [| |discriminate]; destruct Hm as [<-|[]]; reflexivity.
    - intros x n Hx. apply in_kept in Hx as [Hx _]. apply h7; exact Hx.
    - intros x n m Hx Hy. apply in_kept in Hx as [Hx _]. apply in_kept in Hy as [Hy _]. eapply h8; eauto.
    - intros x y n Hx Hy. apply in_kept in Hx as [Hx _]. apply in_kept in Hy as [Hy _]. eapply h9; eauto.
    - intros x n Hx. apply in_kept in Hx as [Hx _]. eapply h10; eauto.
    - intros i t Hn. apply in_kept. split; [apply h11; exact Hn|reflexivity].
    - intros n m Hn Hd Hh Hm Hc Hd2. eapply h12; eauto; apply Hmem; assumption.
    - intros x n Hx. apply in_kept in Hx as [Hx _]. eapply h13; eauto.
  Qed.
  Lemma has_memoize k c g j : has (memoize k c g) j <-> k = j \/ has g j.
  Proof.
    unfold has, memoize; cbn [memo]. rewrite mlookup_madd. destruct (Nat.eqb_spec k j) as [->|N]; split; auto.
    - intros _. discriminate.
    - intros [->|H]; [contradiction|exact H].
  Qed.
  (* a new node held by a new name *)
  Lemma add_name g K D B n x : sinv g K D B -> PN n -> is_cst n = false -> memb n D = false ->
    mlookup (nid n) (memo g) = None -> (is_var n = true -> is_local n = true) -> ~ In x (concat (scopes g)) ->
    (forall m, In m (subs n) -> m <> n -> is_cst m = false -> memb m D = false -> has g (nid m)) ->
    sinv (memoize (nid n) (CV x) (declare x g)) (n :: K) D ((x, n) :: B).
  Proof.
    intros [h1 h2 h3 h4 h5 h6 h7 h8 h9 h10 h11 h12 h13] HP HC HD HM HV HX HSub.
    assert (HH : forall j, has (memoize (nid n) (CV x) (declare x g)) j <-> nid n = j \/ has g j) by (intros j; exact (has_memoize (nid n) (CV x) (declare x g) j)).
    assert (Hnew : forall m, ~ In (x, m) B) by (intros m Hm; apply HX; eapply h7; eauto).
    constructor.
    - apply memoize_ne.
    - apply declare_ne.
    - intros m [<-|Hm]; auto.
    - exact h4.
    - intros m Hm Hc Hd. rewrite memb_cons, HH, orb_true_iff, Nat.eqb_eq. rewrite (h5 m Hm Hc Hd). reflexivity.
    - intros m c Hm Hd Hc. cbn [memoize memo declare] in Hc. rewrite mlookup_madd in Hc.
      destruct (Nat.eqb_spec (nid n) (nid m)) as [E|E].
      + injection Hc as <-. apply HU in E; auto. subst m. apply tr_var. left; reflexivity.
      + eapply tr_incl; [eapply h6; eauto|]. apply incl_tl, incl_refl.
    - intros y m [E|Hy].
      + injection E as <- <-. split; [|exact HP]. cbn [memoize scopes]. rewrite (scopes_declare x g h2). left; reflexivity.
      + destruct (h7 y m Hy) as [H1 H2]. split; [|exact H2]. cbn [memoize scopes]. rewrite (scopes_declare x g h2).
        rewrite (concat_head g h2) in H1. right. exact H1.
    - intros y m p [E|Hy] [E2|Hz]; [congruence| | |eapply h8; eauto].
      + injection E as <- <-. exfalso; eapply Hnew; eauto.
      + injection E2 as <- <-. exfalso; eapply Hnew; eauto.
    - assert (Hold : is_var n = true -> forall y, ~ In (y, n) B).
      { intros V y Hy. specialize (h10 y n Hy (HV V)). unfold has in h10. congruence. }
      intros y z m [E|Hy] [E2|Hz] V; [congruence| | |eapply h9; eauto].
      + injection E as <- <-. exfalso; eapply Hold; eauto.
      + injection E2 as <- <-. exfalso; eapply Hold; eauto.
    - intros y m [E|Hy] L; apply HH; [injection E as <- <-; left; reflexivity|right; eapply h10; eauto].
    - intros i t Hi. right. apply h11; exact Hi.
    - intros m p Hm Hd Hh Hp Hc Hd2. apply HH. apply HH in Hh as [E|Hh]; [|right; eapply h12; eauto].
      apply HU in E; auto. subst m. destruct (Nat.eq_dec (nid n) (nid p)) as [E|E]; [left; exact E|].
      right. apply HSub; auto. congruence.
    - intros y m [E|Hy]; [injection E as <- <-; exact HC|eapply h13; eauto].
  Qed.
  (* a new node held by an expression or by an input name *)
  Lemma add_expr g K D B n c : sinv g K D B -> PN n -> memb n D = false ->
    mlookup (nid n) (memo g) = None -> tr B (cget c) n ->
    (forall m, In m (subs n) -> m <> n -> is_cst m = false -> memb m D = false -> has g (nid m)) ->
    sinv (memoize (nid n) c g) (n :: K) D B.
  Proof.
    intros [h1 h2 h3 h4 h5 h6 h7 h8 h9 h10 h11 h12 h13] HP HD HM HT HSub.
    assert (HH : forall j, has (memoize (nid n) c g) j <-> nid n = j \/ has g j) by (intros j; apply has_memoize).
    constructor; auto.
    - apply memoize_ne.
    - intros m [<-|Hm]; auto.
    - intros m Hm Hc Hd. rewrite memb_cons, HH, orb_true_iff, Nat.eqb_eq. rewrite (h5 m Hm Hc Hd). reflexivity.
    - intros m d Hm Hd Hc. cbn [memoize memo] in Hc. rewrite mlookup_madd in Hc.
      destruct (Nat.eqb_spec (nid n) (nid m)) as [E|E].
      + injection Hc as <-. apply HU in E; auto. subst m. exact HT.
      + eapply h6; eauto.
    - intros y m Hy L. apply HH. right. eapply h10; eauto.
    - intros m p Hm Hd Hh Hp Hc Hd2. apply HH. apply HH in Hh as [E|Hh]; [|right; eapply h12; eauto].
      apply HU in E; auto. subst m. destruct (Nat.eq_dec (nid n) (nid p)) as [E|E]; [left; exact E|].
      right. apply HSub; auto. congruence.
  Qed.

  Lemma usable_sub K D n m : usable K D n = true -> In m (subs n) -> usable K D m = true.
  Proof.
    unfold usable. intros H Hm. apply forallb_forall. intros p Hp. rewrite forallb_forall in H.
    apply H. eapply subs_trans; eauto.
  Qed.
  Lemma usable_mono K K' D n : usable K D n = true -> (forall m, memb m K = true -> memb m K' = true) -> usable K' D n = true.
  Proof.
    unfold usable. intros H HK. apply forallb_forall. intros p Hp. rewrite forallb_forall in H. specialize (H p Hp).
    apply andb_true_iff in H as [H1 H2]. rewrite H1. cbn [andb]. apply orb_true_iff in H2 as [H2|H2]; [rewrite H2; reflexivity|].
    rewrite (HK p H2). apply orb_true_r.
  Qed.
  Lemma usable_D K D n m : usable K D n = true -> In m (subs n) -> memb m D = false.
  Proof.
    unfold usable. intros H Hm. rewrite forallb_forall in H. specialize (H m Hm). apply andb_true_iff in H as [H _].
    apply negb_true_iff in H. exact H.
  Qed.
  Lemma usable_L K D n m : usable K D n = true -> In m (subs n) -> is_local m = true -> memb m K = true.
  Proof.
    unfold usable. intros H Hm L. rewrite forallb_forall in H. specialize (H m Hm). apply andb_true_iff in H as [_ H].
    rewrite L in H. exact H.
  Qed.
  Lemma inlinable_mono K K' n : inlinable K n = true -> (forall m, memb m K = true -> memb m K' = true) -> inlinable K' n = true.
  Proof.
    unfold inlinable. intros H HK. apply forallb_forall. intros p Hp. rewrite forallb_forall in H. specialize (H p Hp).
    apply orb_true_iff in H as [H|H]; [rewrite (HK p H); reflexivity|rewrite H; apply orb_true_r].
  Qed.
  Lemma inlinable_sub K n m : inlinable K n = true -> In m (subs n) -> inlinable K m = true.
  Proof.
    unfold inlinable. intros H Hm. apply forallb_forall. intros p Hp. rewrite forallb_forall in H. apply H. eapply subs_trans; eauto.
  Qed.
  Lemma execl_app (ex : cstmt -> env -> outcome env) l1 l2 E :
    execl ex (l1 ++ l2) E = match execl ex l1 E with Done E1 => execl ex l2 E1 | r => r end.
  Proof.
    revert E. induction l1 as [|s l1 IH]; intros E; cbn [execl app]; [reflexivity|].
    destruct (ex s E); auto.
  Qed.

  (* what running a piece of generated expression code does *)
  Definition runs (code : list cstmt) (g' : gst) (B B' : bnd) (Q : store -> Prop) : Prop :=
    forall k E st, agree E B st -> Q st -> incl (ghead g') (keys (hd [] E)) -> E <> [] ->
      exists E', execl (cexec opsem k) code E = Done E' /\ agree E' B' st /\ shape E' = shape E.
  Lemma shape_hd E E' : shape E' = shape E -> keys (hd [] E') = keys (hd [] E) /\ (E <> [] -> E' <> []).
  Proof.
    unfold shape. destruct E as [|s E], E' as [|s' E']; cbn [map]; intros H; try discriminate; split; auto; try (intros _; discriminate).
    injection H as H1 H2. exact H1.
  Qed.
  Definition good_gen (gen1 : gst -> node -> option (list cstmt * cval * gst)) (inl : bool) : Prop :=
    forall g n code c g' K D B, gen1 g n = Some (code, c, g') -> sinv g K D B -> PN n -> usable K D n = true ->
      exists B', sinv g' (subs n ++ K) D B' /\ incl B B' /\ tr B' (cget c) n /\
        gext (map nid (subs n)) g g' /\
        (inl = true -> inlinable K n = true -> code = [] /\ B' = B) /\
        runs code g' B B' (fun st => exists v, eval opsem st n = Some v).

  Lemma gens_ok gen1 inl : good_gen gen1 inl ->
    forall l g code rs g' K D B, gens gen1 g l = Some (code, rs, g') -> sinv g K D B ->
      (forall i a, In (i, a) l -> PN a /\ usable K D a = true) ->
      exists B' K', sinv g' K' D B' /\ incl B B' /\
        (forall m, memb m K' = true <-> memb m K = true \/ exists i a, In (i, a) l /\ memb m (subs a) = true) /\
        (forall i c, In (i, c) rs -> exists a, In (i, a) l /\ tr B' (cget c) a) /\
        gext (concat (map (fun p => map nid (subs (snd p))) l)) g g' /\
        (inl = true -> (forall i a, In (i, a) l -> inlinable K a = true) -> code = [] /\ B' = B) /\
        runs code g' B B' (fun st => forall i a, In (i, a) l -> exists v, eval opsem st a = Some v).
  Proof.
    intros HG. induction l as [|[i a] l IH]; intros g code rs g' K D B H HI HL; cbn [gens] in H.
    - injection H as <- <- <-. exists B, K. split; [exact HI|]. split; [apply incl_refl|].
      split; [intros m; split; [auto|intros [Hm|(i & a & [] & _)]; exact Hm]|].
      split; [intros i c []|]. split; [apply gext_refl; [exact (s_mne _ _ _ _ HI)|exact (s_sne _ _ _ _ HI)]|].
      split; [auto|]. intros k E st HA _ _ _. exists E. auto.
    - destruct (gen1 g a) as [[[c1 v] g1]|] eqn:E1; [|discriminate].
      destruct (gens gen1 g1 l) as [[[c2 vs] g2]|] eqn:E2; [|discriminate]. injection H as <- <- <-.
      destruct (HL i a (or_introl eq_refl)) as [Pa Ua].
      destruct (HG _ _ _ _ _ _ _ _ E1 HI Pa Ua) as (B1 & I1 & L1 & T1 & X1 & N1 & R1).
      assert (HL1 : forall j b, In (j, b) l -> PN b /\ usable (subs a ++ K) D b = true).
      { intros j b Hb. destruct (HL j b (or_intror Hb)) as [Pb Ub]. split; [exact Pb|].
        eapply usable_mono; [exact Ub|]. intros m Hm. rewrite memb_app, Hm. apply orb_true_r. }
      destruct (IH _ _ _ _ _ _ _ E2 I1 HL1) as (B2 & K2 & I2 & L2 & HK2 & T2 & X2 & N2 & R2).
      exists B2, K2. split; [exact I2|]. split; [eapply incl_tran; eauto|]. split; [|split; [|split; [|split]]].
      + intros m. rewrite HK2, memb_app, orb_true_iff. split.
        * intros [[Hm|Hm]|(j & b & Hb & Hm)]; [right; exists i, a; split; [left; reflexivity|exact Hm]|left; exact Hm|right; exists j, b; split; [right; exact Hb|exact Hm]].
        * intros [Hm|(j & b & [Hb|Hb] & Hm)]; [left; right; exact Hm|injection Hb as <- <-; left; left; exact Hm|right; exists j, b; auto].
      + intros j c [Hj|Hj].
        * injection Hj as <- <-. exists a. split; [left; reflexivity|]. eapply tr_incl; eauto.
        * destruct (T2 j c Hj) as (b & Hb & Tb). exists b. split; [right; exact Hb|exact Tb].
      + cbn [map concat snd]. apply (gext_trans _ g g1 g2 (s_sne _ _ _ _ HI)).
        * eapply gext_weak; [|exact X1]. apply incl_appl, incl_refl.
        * eapply gext_weak; [|exact X2]. apply incl_appr, incl_refl.
      + intros Hinl Hall. destruct (N1 Hinl (Hall i a (or_introl eq_refl))) as [-> ->].
        destruct (N2 Hinl) as [-> ->]; [|auto]. intros j b Hb. eapply inlinable_mono; [apply (Hall j b); right; exact Hb|].
        intros m Hm. rewrite memb_app, Hm. apply orb_true_r.
      + intros k E st HA HQ Hd HE.
        destruct (R1 k E st HA) as (E1' & F1 & A1 & S1); [apply (HQ i a); left; reflexivity| |exact HE|].
        { eapply incl_tran; [exact (x_incl _ _ _ X2)|exact Hd]. }
        destruct (shape_hd _ _ S1) as [S1a S1b].
        destruct (R2 k E1' st A1) as (E2' & F2 & A2 & S2); [intros j b Hb; apply (HQ j b); right; exact Hb|rewrite S1a; exact Hd|auto|].
        exists E2'. rewrite execl_app, F1, F2. split; [reflexivity|]. split; [exact A2|congruence].
  Qed.

  Lemma agree_set E E' B st x n v : agree E B st -> (forall m, ~ In (x, m) B) -> is_cst n = false -> is_var n = false ->
    (forall y, elook y E' = if String.eqb x y then Some (Some v) else elook y E) -> eval opsem st n = Some v ->
    agree E' ((x, n) :: B) st.
  Proof.
    intros HA HN HC HV HL HE y m [H|H].
    - injection H as <- <-. destruct n as [|?|]; [discriminate|discriminate|]. exists v. split; [|exact HE].
      rewrite HL, String.eqb_refl. reflexivity.
    - specialize (HA y m H). assert (x <> y) by (intros ->; eapply HN; eauto).
      destruct m as [i l t|i w|i op ff t args].
      + rewrite HL. apply String.eqb_neq in H0. rewrite H0. exact HA.
      + destruct HA as (w0 & H1 & H2). exists w0. split; [|exact H2]. rewrite HL. apply String.eqb_neq in H0. rewrite H0. exact H1.
      + destruct HA as (w0 & H1 & H2). exists w0. split; [|exact H2]. rewrite HL. apply String.eqb_neq in H0. rewrite H0. exact H1.
  Qed.

  Theorem gen_ok fuel : forall inl, good_gen (gen pick order fuel inl) inl.
  Proof.
    induction fuel as [|f IH]; intros inl g n code c g' K D B H HI HP HUs; [discriminate|]. pose proof H as H0. cbn [gen] in H.
    pose proof (gen_gext pick order pick_fresh PN HU HS (S f) inl g n code c g' (s_mne _ _ _ _ HI) (s_sne _ _ _ _ HI) HP H0) as HX.
    clear H0.
    assert (ND : memb n D = false) by (eapply usable_D; [exact HUs|apply subs_self]).
    destruct (mlookup (nid n) (memo g)) as [c0|] eqn:E0.
    { (* memo hit *)
      injection H as <- <- <-. exists B. split; [|split; [apply incl_refl|split; [eapply s_tr; eauto|split; [exact HX|split; [auto|]]]]].
      - assert (HG : has g (nid n)) by (unfold has; congruence).
        destruct HI as [h1 h2 h3 h4 h5 h6 h7 h8 h9 h10 h11 h12 h13]. constructor; auto.
        + intros m Hm. apply in_app_iff in Hm as [Hm|Hm]; [eapply HS; eauto|auto].
        + intros m Hm Hc Hd. rewrite memb_app, orb_true_iff. split.
          * intros [Hs|Hk]; [|apply h5; assumption].
            assert (Hin : In m (subs n)).
            { apply memb_In; [exact Hm|intros p Hp; exact (HS n p HP Hp)|exact Hs]. }
            exact (h12 n m HP ND HG Hin Hc Hd).
          * intros Hh. right. apply h5; assumption.
      - intros k E st HA _ _ _. exists E. auto. }
    destruct n as [i [|] tag|i v|i op ff tag args]; cbn [nid] in E0.
    - (* a local variable is met by its assignment first *)
      exfalso. pose proof (usable_L _ _ _ _ HUs (subs_self _) eq_refl) as HK.
      apply (s_K _ _ _ _ HI _ HP eq_refl ND) in HK. unfold has in HK. cbn [nid] in HK. congruence.
    - injection H as <- <- <-. exists B.
      assert (HT : tr B (cget (CV tag)) (NVar i false tag)) by (apply tr_var; apply (s_in _ _ _ _ HI); exact HP).
      split; [apply (add_expr g K D B (NVar i false tag) (CV tag)); auto|].
      { intros m [<-|[]] Hne; congruence. }
      split; [apply incl_refl|]. split; [exact HT|]. split; [exact HX|]. split; [auto|].
      intros k E st HA _ _ _. exists E. auto.
    - injection H as <- <- <-. exists B.
      assert (HT : tr B (cget (CE (ECst v))) (NCst i v)) by apply tr_cst.
      split; [apply (add_expr g K D B (NCst i v) (CE (ECst v))); auto|].
      { intros m [<-|[]] Hne; congruence. }
      split; [apply incl_refl|]. split; [exact HT|]. split; [exact HX|]. split; [auto|].
      intros k E st HA _ _ _. exists E. auto.
    - destruct (gens _ g _) as [[[code1 rs] g1]|] eqn:EG; [|discriminate].
      destruct (collect rs _) as [cs|] eqn:EC; [|discriminate].
      assert (HArg : forall a, In a args -> In a (subs (NOp i op ff tag args)))
        by (intros a Ha; apply subs_op; right; exists a; split; [exact Ha|apply subs_self]).
      assert (HL : forall j a, In (j, a) (sort_args order (enumerate args)) -> PN a /\ usable K D a = true).
      { intros j a Hja. apply in_sorted in Hja. apply nth_error_In in Hja.
        split; [eapply HS; eauto|eapply usable_sub; eauto]. }
      destruct (gens_ok _ _ (IH inl) _ _ _ _ _ _ _ _ EG HI HL) as (B1 & K1 & I1 & L1 & HK1 & T1 & X1 & N1 & R1).
      assert (HF : Forall2 (fun a c => tr B1 (cget c) a) args cs).
      { eapply (forall2_seq _ args cs 0 (fun i c => In (i, c) rs)); [apply collect_nth; exact EC|].
        intros j a d Hj Hd. destruct (T1 _ _ Hd) as (b & Hb & Tb). cbn [Nat.add] in Hb.
        apply in_sorted in Hb. replace a with b by congruence. exact Tb. }
      assert (HT : tr B1 (EOp op (map cget cs)) (NOp i op ff tag args)).
      { apply tr_op. clear - HF. induction HF; cbn [map]; constructor; auto. }
      assert (HK1' : forall m, memb m K1 = true <-> memb m K = true \/ exists a, In a args /\ memb m (subs a) = true).
      { intros m. rewrite HK1. split; (intros [Hm|Hm]; [left; exact Hm|right]).
        - destruct Hm as (j & a & Hja & Hm). apply in_sorted in Hja. apply nth_error_In in Hja. exists a; auto.
        - destruct Hm as (a & Ha & Hm). apply In_nth_error in Ha as (j & Hj). exists j, a. split; [apply in_sorted; exact Hj|exact Hm]. }
      assert (E1 : mlookup i (memo g1) = None).
      { apply mlookup_none_some. intros Hh. destruct (x_keys _ _ _ X1 i Hh) as [Hg|Hk]; [unfold has in Hg; congruence|].
        apply in_concat in Hk as (l & Hl & Hk). apply in_map_iff in Hl as ([j a] & <- & Hja). cbn [snd] in Hk.
        apply in_map_iff in Hk as (m & Em & Hm). apply in_sorted in Hja. apply nth_error_In in Hja.
        exact (below_id PN HU HS _ _ _ _ _ _ _ HP Hja Hm Em). }
      assert (HSub : forall m, In m (subs (NOp i op ff tag args)) -> m <> NOp i op ff tag args -> is_cst m = false -> memb m D = false -> has g1 (nid m)).
      { intros m Hm Hne Hc Hd. apply (s_K _ _ _ _ I1 m (HS _ _ HP Hm) Hc Hd). apply HK1'. right.
        apply subs_op in Hm as [->|(a & Ha & Hm)]; [congruence|]. exists a. split; [exact Ha|apply memb_in; exact Hm]. }
      assert (HKP : forall m, In m (subs (NOp i op ff tag args) ++ K) -> PN m).
      { intros m Hm. apply in_app_iff in Hm as [Hm|Hm]; [exact (HS _ _ HP Hm)|exact (s_KP _ _ _ _ HI m Hm)]. }
      assert (HKE : forall m, memb m (subs (NOp i op ff tag args) ++ K) = memb m (NOp i op ff tag args :: K1)).
      { intros m. cbn [subs app]. rewrite !memb_cons. f_equal. rewrite memb_app. apply eq_true_iff_eq.
        rewrite orb_true_iff, HK1'. split.
        - intros [Hm|Hm]; [right|left; exact Hm]. apply memb_iff in Hm as (p & Hp & Ep). apply in_concat in Hp as (l & Hl & Hp).
          apply in_map_iff in Hl as (a & <- & Ha). exists a. split; [exact Ha|]. apply memb_iff. exists p; auto.
        - intros [Hm|(a & Ha & Hm)]; [right; exact Hm|left]. apply memb_iff in Hm as (p & Hp & Ep). apply memb_iff.
          exists p. split; [apply in_concat; exists (subs a); split; [apply in_map; exact Ha|exact Hp]|exact Ep]. }
      assert (HEv : forall st, (exists v, eval opsem st (NOp i op ff tag args) = Some v) ->
        forall j a, In (j, a) (sort_args order (enumerate args)) -> exists v, eval opsem st a = Some v).
      { intros st (v & Hv) j a Hja. apply in_sorted in Hja. apply nth_error_In in Hja. eapply eval_args; eauto. }
      destruct (stored ff inl) eqn:ES; injection H as <- <- <-.
      + set (x := fresh_name pick g1 tag) in *.
        assert (HFx : ~ In x (concat (scopes g1))) by apply pick_fresh.
        exists ((x, NOp i op ff tag args) :: B1). split; [|split; [|split; [|split; [exact HX|split]]]].
        * eapply sinv_K; [apply (add_name g1 K1 D B1 (NOp i op ff tag args) x); auto; discriminate|exact HKP|exact HKE].
        * apply incl_tl. exact L1.
        * apply tr_var. left; reflexivity.
        * intros -> Hin. exfalso.
          assert (Hh : inlinable K (NOp i op ff tag args) = true) by exact Hin.
          unfold inlinable in Hh. rewrite forallb_forall in Hh. specialize (Hh _ (subs_self _)).
          apply orb_true_iff in Hh as [Hh|Hh].
          -- apply (s_K _ _ _ _ HI _ HP eq_refl ND) in Hh. unfold has in Hh. cbn [nid] in Hh. congruence.
          -- destruct ff as [[|]|]; cbn in ES, Hh; discriminate.
        * intros k E st HA HQ Hd HE.
          assert (Hd1 : incl (ghead g1) (keys (hd [] E))).
          { intros y Hy. apply Hd. unfold ghead, memoize. cbn [scopes]. rewrite (scopes_declare x g1 (s_sne _ _ _ _ I1)). right; exact Hy. }
          destruct (R1 k E st HA (HEv st HQ) Hd1 HE) as (E2 & F2 & A2 & S2).
          destruct HQ as (v & Hv).
          assert (HCv : ceval opsem E2 (EOp op (map cget cs)) = Some v) by (rewrite (tr_eval E2 B1 st A2 _ _ HT); exact Hv).
          destruct (shape_hd _ _ S2) as [S2a S2b].
          assert (HLk : elook x E2 <> None).
          { destruct E2 as [|s2 E2]; [destruct (S2b HE); reflexivity|]. apply elook_head.
            cbn [hd] in S2a. rewrite S2a. apply Hd. unfold ghead, memoize. cbn [scopes]. rewrite (scopes_declare x g1 (s_sne _ _ _ _ I1)). left; reflexivity. }
          destruct (eset_spec x v E2 HLk) as (E3 & F3 & S3 & L3).
          exists E3. rewrite execl_app, F2. cbn [execl cexec]. rewrite HCv, F3. split; [reflexivity|]. split; [|congruence].
          eapply agree_set; [exact A2| |reflexivity|reflexivity|exact L3|exact Hv].
          intros m Hm. apply HFx. eapply s_B; eauto.
      + exists B1. split; [|split; [exact L1|split; [exact HT|split; [exact HX|split]]]].
        * eapply sinv_K; [apply (add_expr g1 K1 D B1 (NOp i op ff tag args) (CE (EOp op (map cget cs)))); auto|exact HKP|exact HKE].
        * intros Hinl Hin. apply N1; [exact Hinl|]. intros j a Hja. apply in_sorted in Hja. apply nth_error_In in Hja.
          eapply inlinable_sub; eauto.
        * intros k E st HA HQ Hd HE. apply (R1 k E st HA (HEv st HQ) Hd HE).
  Qed.

  (* running the code of a statement *)
  Definition sruns (s : stmt) (code : list cstmt) (g' : gst) (B B' : bnd) : Prop :=
    forall k E st, agree E B st -> incl (ghead g') (keys (hd [] E)) -> E <> [] ->
      match sexec opsem k s st with
      | Done st' => exists E', execl (cexec opsem k) code E = Done E' /\ agree E' B' st' /\ shape E' = shape E
      | Returned v => execl (cexec opsem k) code E = Returned v
      | NoFuel => execl (cexec opsem k) code E = NoFuel
      | Wrong => True
      end.

  Lemma agree_assign g K D B E E' st st1 v x val : sinv g K D B -> agree E B st1 -> PN v -> is_var v = true -> In (x, v) B ->
    (forall j, j <> nid v -> st1 j = st j) ->
    (forall y, elook y E' = if String.eqb x y then Some (Some val) else elook y E) ->
    agree E' (kept [nid v] B) (upd_store st (nid v) val).
  Proof.
    intros HI HA HP HV Hx Hst HL y m Hy. apply in_kept in Hy as [Hy Hk]. specialize (HA y m Hy).
    assert (HPm : PN m) by (eapply s_B; eauto).
    destruct (String.eqb_spec x y) as [->|Hne].
    - assert (m = v) by (eapply s_fun; eauto). subst m. destruct v as [i l t|?|]; try discriminate.
      rewrite HL, String.eqb_refl. unfold upd_store. cbn [nid]. rewrite Nat.eqb_refl. reflexivity.
    - assert (HLy : elook y E' = elook y E) by (rewrite HL; apply String.eqb_neq in Hne; rewrite Hne; reflexivity).
      assert (Hev : reads [nid v] m = false -> eval opsem (upd_store st (nid v) val) m = eval opsem st1 m).
      { intros Hr. rewrite eval_upd by exact Hr. apply eval_ext. intros p Hp Vp. symmetry. apply Hst.
        intros E0. rewrite (proj2 (reads_iff [nid v] m)) in Hr; [discriminate|]. exists p. repeat split; auto. left; auto. }
      destruct m as [i l t|i w|i op ff t args].
      + rewrite HLy, HA. unfold upd_store. destruct (Nat.eqb_spec i (nid v)) as [E0|E0].
        * exfalso. apply Hne. assert (Em : NVar i l t = v) by (apply HU; auto). rewrite <- Em in Hx.
          exact (s_var _ _ _ _ HI _ _ _ Hx Hy eq_refl).
        * rewrite Hst by exact E0. reflexivity.
      + destruct HA as (w0 & H1 & H2). exists w0. rewrite HLy. split; [exact H1|]. rewrite Hev by reflexivity. exact H2.
      + destruct HA as (w0 & H1 & H2). exists w0. rewrite HLy. split; [exact H1|].
        rewrite Hev; [exact H2|]. unfold keep in Hk. cbn [is_op andb] in Hk. apply negb_true_iff in Hk. exact Hk.
  Qed.
  (* entering and leaving a level *)
  Lemma agree_push E B st d : agree E B st -> (forall x n, In (x, n) B -> ~ In x d) -> agree (fresh_scope d :: E) B st.
  Proof.
    intros HA HN x n Hx. specialize (HA x n Hx).
    assert (HL : elook x (fresh_scope d :: E) = elook x E) by (apply elook_skip; rewrite fresh_scope_keys; eapply HN; eauto).
    destruct n; rewrite HL; exact HA.
  Qed.
  Lemma agree_pop s E B st : agree (s :: E) B st -> (forall x n, In (x, n) B -> ~ In x (keys s)) -> agree E B st.
  Proof.
    intros HA HN x n Hx. specialize (HA x n Hx).
    rewrite (elook_skip x s E) in HA by (eapply HN; eauto). exact HA.
  Qed.
  Lemma sinv_open_code g K D B : sinv g K D B -> sinv (open_code g) K D B.
  Proof. intros [h1 h2 h3 h4 h5 h6 h7 h8 h9 h10 h11 h12 h13]. constructor; auto. discriminate. Qed.
  Lemma sinv_open_memo g K D B : sinv g K D B -> sinv (open_memo g) K D B.
  Proof. intros [h1 h2 h3 h4 h5 h6 h7 h8 h9 h10 h11 h12 h13]. constructor; auto. discriminate. Qed.

  (* a branch run in a level of its own *)
  Lemma level_runs s code g1 d B B' Bk k E st : sruns s code g1 B B' -> agree E B st -> d = level_names g1 ->
    (forall x n, In (x, n) B -> ~ In x d) -> (forall x n, In (x, n) Bk -> In (x, n) B /\ In (x, n) B') -> E <> [] ->
    match sexec opsem k s st with
    | Done st' => exists E', leave (execl (cexec opsem k) code (fresh_scope d :: E)) = Done E' /\ agree E' Bk st' /\ shape E' = shape E
    | Returned v => leave (execl (cexec opsem k) code (fresh_scope d :: E)) = Returned v
    | NoFuel => leave (execl (cexec opsem k) code (fresh_scope d :: E)) = NoFuel
    | Wrong => True
    end.
  Proof.
    intros HR HA -> Hd HB HE.
    specialize (HR k (fresh_scope (level_names g1) :: E) st (agree_push _ _ _ _ HA Hd)).
    destruct (sexec opsem k s st) as [st'|v| |].
    - destruct HR as (E' & H1 & H2 & H3); [|discriminate|].
      { cbn [hd]. rewrite fresh_scope_keys. unfold level_names, ghead. intros x Hx. rewrite <- in_rev. exact Hx. }
      destruct E' as [|s' E']; [discriminate|]. unfold shape in H3. cbn [map] in H3. injection H3 as H3 H4.
      exists E'. rewrite H1. split; [reflexivity|]. split; [|exact H4].
      rewrite fresh_scope_keys in H3. apply (agree_pop s'); [eapply agree_incl; [exact H2|]; intros [x n] Hx; apply HB; exact Hx|].
      intros x n Hx. rewrite H3. eapply Hd. apply HB. exact Hx.
    - rewrite HR; [reflexivity| |discriminate]. cbn [hd]. rewrite fresh_scope_keys. unfold level_names, ghead. intros x Hx. rewrite <- in_rev. exact Hx.
    - exact I.
    - rewrite HR; [reflexivity| |discriminate]. cbn [hd]. rewrite fresh_scope_keys. unfold level_names, ghead. intros x Hx. rewrite <- in_rev. exact Hx.
  Qed.

  Definition stmt_good (fuel : nat) (s : stmt) : Prop :=
    forall g code g' K D K' D' B, gen_stmt pick order fuel g s = Some (code, g') -> check K D s = Some (K', D') ->
      (forall n, In n (snodes s) -> PN n) -> sinv g K D B ->
      exists B', sinv g' K' D' B' /\ (forall x n, In (x, n) B -> keep (assigned s) n = true -> In (x, n) B') /\
        sruns s code g' B B'.

  Lemma runs_expr code g' B B' e c : runs code g' B B' (fun st => exists v, eval opsem st e = Some v) -> tr B' (cget c) e ->
    forall k E st v, agree E B st -> eval opsem st e = Some v -> incl (ghead g') (keys (hd [] E)) -> E <> [] ->
      exists E', execl (cexec opsem k) code E = Done E' /\ agree E' B' st /\ shape E' = shape E /\ ceval opsem E' (cget c) = Some v.
  Proof.
    intros HR HT k E st v HA Hv Hd HE. destruct (HR k E st HA (ex_intro _ v Hv) Hd HE) as (E' & H1 & H2 & H3).
    exists E'. repeat (split; [assumption|]). rewrite (tr_eval E' B' st H2 _ _ HT). exact Hv.
  Qed.

  (* the left-hand side of an assignment *)
  Lemma lhs_ok fuel g v e c1 x g1 K D B : gen pick order fuel false g v = Some (c1, CV x, g1) -> sinv g K D B ->
    PN v -> is_var v = true -> memb v D = false -> usable K D e = true -> PN e ->
    exists B1, sinv g1 (v :: K) D B1 /\ In (x, v) B1 /\ c1 = [] /\
      (forall y n, In (y, n) B -> keep [nid v] n = true -> In (y, n) B1) /\
      (forall E st, agree E B st -> incl (ghead g1) (keys (hd [] E)) -> E <> [] ->
        exists st1, agree E B1 st1 /\ (forall j, j <> nid v -> st1 j = st j) /\ eval opsem st1 e = eval opsem st e).
  Proof.
    intros H HI HP HV HD HUs HPe. destruct fuel as [|f]; [discriminate|]. cbn [gen] in H.
    destruct (mlookup (nid v) (memo g)) as [c0|] eqn:E0.
    - injection H as <- -> <-. pose proof (s_tr _ _ _ _ HI v _ HP HD E0) as HT. cbn [cget] in HT. inversion HT; subst.
      exists B. split; [|split; [assumption|split; [reflexivity|split; [auto|]]]].
      + eapply sinv_K; [exact HI| |].
        * intros n [<-|Hn]; [exact HP|eapply s_KP; eauto].
        * intros n. rewrite memb_cons. destruct (Nat.eqb_spec (nid v) (nid n)) as [En|]; [|reflexivity].
          cbn [orb]. symmetry. replace (memb n K) with (memb v K) by (unfold memb; rewrite En; reflexivity).
          apply (s_K _ _ _ _ HI v HP); [destruct v; try discriminate; reflexivity|exact HD|unfold has; congruence].
      + intros E st HA _ _. exists st. auto.
    - destruct v as [i [|] tag|?|]; try discriminate; cbn [nid] in *.
      + injection H as <- <- <-. set (x := fresh_name pick g tag) in *.
        assert (HX : ~ In x (concat (scopes g))) by apply pick_fresh.
        assert (HNK : memb (NVar i true tag) K = false).
        { destruct (memb (NVar i true tag) K) eqn:EK; [|reflexivity].
          apply (s_K _ _ _ _ HI _ HP eq_refl HD) in EK. unfold has in EK. cbn [nid] in EK. congruence. }
        (* nothing that is alive depends on the new variable *)
        assert (HNR : forall n, PN n -> memb n D = false -> has g (nid n) -> reads [i] n = false).
        { intros n Hn Hd Hh. destruct (reads [i] n) eqn:Er; [|reflexivity]. exfalso.
          apply reads_iff in Er as (m & Hm & Vm & [Em|[]]).
          assert (m = NVar i true tag) by (apply HU; [eapply HS; eauto|exact HP|exact (eq_sym Em)]). subst m.
          pose proof (s_cl _ _ _ _ HI n _ Hn Hd Hh Hm eq_refl HD) as Hc. unfold has in Hc. cbn [nid] in Hc. congruence. }
        assert (HI0 : sinv g K D (kept [i] B)).
        { destruct HI as [h1 h2 h3 h4 h5 h6 h7 h8 h9 h10 h11 h12 h13]. constructor; auto.
          - intros n c Hn Hd Hc. eapply tr_weaken; [eapply h6; eauto|]. intros y m Hy Hm. apply in_kept. split; [exact Hy|].
            unfold keep. destruct (reads [i] m) eqn:Er; [|rewrite andb_false_r; reflexivity].
            pose proof (reads_sub [i] n m Hm Er) as Q.
            rewrite (HNR n Hn Hd) in Q; [discriminate|unfold has; congruence].
          - intros y n Hy. apply in_kept in Hy as [Hy _]. apply h7; exact Hy.
          - intros y n m Hy Hz. apply in_kept in Hy as [Hy _]. apply in_kept in Hz as [Hz _]. eapply h8; eauto.
          - intros y z n Hy Hz. apply in_kept in Hy as [Hy _]. apply in_kept in Hz as [Hz _]. eapply h9; eauto.
          - intros y n Hy. apply in_kept in Hy as [Hy _]. eapply h10; eauto.
          - intros j t Hn. apply in_kept. split; [apply h11; exact Hn|reflexivity].
          - intros y n Hy. apply in_kept in Hy as [Hy _]. eapply h13; eauto. }
        exists ((x, NVar i true tag) :: kept [i] B).
        split; [|split; [left; reflexivity|split; [reflexivity|split]]].
        * apply (add_name g K D (kept [i] B) (NVar i true tag) x); auto. intros m [<-|[]] Hne; congruence.
        * intros y n Hy Hk. right. apply in_kept. auto.
        * intros E st HA Hd HE.
          assert (HLk : elook x E <> None).
          { destruct E as [|s0 E]; [destruct HE; reflexivity|]. apply elook_head. apply Hd.
            unfold ghead, memoize. cbn [scopes]. rewrite (scopes_declare x g (s_sne _ _ _ _ HI)). left; reflexivity. }
          destruct (elook x E) as [o|] eqn:EL; [|congruence].
          exists (fun j => if Nat.eqb j i then o else st j). split; [|split].
          -- intros y m [Hy|Hy].
             ++ injection Hy as <- <-. rewrite Nat.eqb_refl. exact EL.
             ++ apply in_kept in Hy as [Hy Hk]. pose proof (HA y m Hy) as HAy.
                destruct m as [j l t|j w|j op ff t args].
                ** destruct (Nat.eqb_spec j i) as [Ej|Ej]; [|exact HAy]. exfalso.
                   destruct (s_B _ _ _ _ HI y _ Hy) as [_ HPm].
                   assert (Em : NVar j l t = NVar i true tag) by (apply HU; auto).
                   rewrite Em in Hy. pose proof (s_loc _ _ _ _ HI y _ Hy eq_refl) as Hh. unfold has in Hh. cbn [nid] in Hh. congruence.
                ** exact HAy.
                ** destruct HAy as (w0 & H1 & H2). exists w0. split; [exact H1|]. rewrite <- H2. apply eval_ext.
                   intros p Hp Vp. destruct (Nat.eqb_spec (nid p) i) as [Ep|]; [|reflexivity]. exfalso.
                   unfold keep in Hk. cbn [is_op andb] in Hk. apply negb_true_iff in Hk.
                   rewrite (proj2 (reads_iff [i] _)) in Hk; [discriminate|]. exists p. repeat split; auto. left; auto.
          -- intros j Hj. apply Nat.eqb_neq in Hj. rewrite Hj. reflexivity.
          -- apply eval_ext. intros p Hp Vp. destruct (Nat.eqb_spec (nid p) i) as [Ep|]; [|reflexivity]. exfalso.
             assert (p = NVar i true tag) by (apply HU; [eapply HS; eauto|exact HP|exact Ep]). subst p.
             pose proof (usable_L _ _ _ _ HUs Hp eq_refl). congruence.
      + injection H as <- <- <-. exists B.
        assert (HB : In (tag, NVar i false tag) B) by (apply (s_in _ _ _ _ HI); exact HP).
        split; [|split; [exact HB|split; [reflexivity|split; [auto|]]]].
        * apply (add_expr g K D B (NVar i false tag) (CV tag)); auto; [apply tr_var; exact HB|]. intros m [<-|[]] Hne; congruence.
        * intros E st HA _ _. exists st. auto.
  Qed.
End Main.
