(* The program after the renaming of some blocks. *)
Require Import ZArith List Arith Bool Lia.
From Verif Require Import DomModel DomProofs SsaModel SsaSpec SsaProofs SsaBlock SsaMain.
Import ListNotations.

Definition pvar (x : phi) : nat := fst (fst x).
Lemma map_pvar l : map pvar l = map fst (map fst l).
Proof. rewrite map_map. reflexivity. Qed.
Lemma map_pair_in (A B C : Type) (f : A -> B) (g : A -> C) l : forall l', map f l = map f l' -> map g l = map g l' ->
  forall x, In x l -> exists y, In y l' /\ f y = f x /\ g y = g x.
Proof.
  induction l as [|a l IH]; intros l' H1 H2 x Hx; [destruct Hx|]. destruct l' as [|b l']; [discriminate|].
  cbn [map] in H1, H2. injection H1 as E1 H1. injection H2 as E2 H2. destruct Hx as [<-|Hx].
  - exists b. split; [left; reflexivity|auto].
  - destruct (IH l' H1 H2 x Hx) as (y & A1 & A2). exists y. split; [right; exact A1|exact A2].
Qed.
Lemma app_last (A : Type) (dn l1 l2 : list A) (a b : A) : dn ++ [b] = l1 ++ a :: l2 ->
  (l2 = [] /\ a = b /\ l1 = dn) \/ exists l2', l2 = l2' ++ [b] /\ dn = l1 ++ a :: l2'.
Proof.
  destruct l2 as [|c l2] using rev_ind; intros E.
  - left. apply app_inj_tail in E. destruct E as [E1 E2]. auto.
  - right. exists l2. clear IHl2. change (l1 ++ a :: l2 ++ [c]) with (l1 ++ (a :: l2) ++ [c]) in E. rewrite app_assoc in E.
    apply app_inj_tail in E. destruct E as [E1 ->]. auto.
Qed.
Lemma find_ext (A : Type) (f g : A -> bool) l : (forall x, In x l -> f x = g x) -> find f l = find g l.
Proof.
  induction l as [|a l IH]; intros H; [reflexivity|]. cbn [find]. rewrite (H a (or_introl eq_refl)), IH; [reflexivity|].
  intros x Hx. apply H. right; exact Hx.
Qed.

Section Inv.
  Variable root : nat.
  Variable edges : list (nat * nat).
  Variable bbs : list nat.
  Hypothesis root_in : In root bbs.
  Hypothesis src_in : forall s d, In (s, d) edges -> In s bbs.
  Hypothesis dst_in : forall s d, In (s, d) edges -> In d bbs.
  Hypothesis root_no_pred : forall s, ~ In (s, root) edges.
  Hypothesis AR : forall b, In b bbs -> reachable root edges b.
  Hypothesis NB : NoDup bbs.
  Variable D : dmap.
  Hypothesis HD : forall b a, In b bbs -> (In a (D b) <-> In a bbs /\ dominates root edges a b).
  Notation dominates := (dominates root edges).
  Notation sdom := (strictly_dominates root edges).
  Variable P : prog.
  Hypothesis HE : edges_of P bbs edges.
  Hypothesis HP : forall b, In b bbs -> plain_blk (P b).
  Variable N : nat -> Prop.
  Hypothesis HN : forall b v, In b bbs -> assigns v (P b) \/ has_phi v (P b) -> ~ N v.
  Hypothesis H2 : two_preds edges P.
  Variable m : mode.
  Hypothesis Hm : m = ForPred \/ m = AsIs /\ phis_mentioned edges P.

  Definition slots_ok (dn : list nat) (Vout : nat -> nat -> option nat) (c v : nat) (ops : list (nat * name)) : Prop :=
    NoDup (map fst ops) /\
    (forall p i, In (p, i) ops -> In p dn /\ In (p, c) edges /\ forall k, Vout p v = Some k -> i = (v, Some k)) /\
    (forall p k, In p dn -> In (p, c) edges -> Vout p v = Some k -> In (p, (v, Some k)) ops).
  Record inv (dn : list nat) (R : rst) (Vin Vout : nat -> nat -> option nat) : Prop := mkinv {
    i_rel : exists C, rel R C /\ owned R C dn;
    i_unt : untouched N R;
    i_new : forall c, ~ In c dn -> b_ops (code R c) = b_ops (P c) /\ b_end (code R c) = b_end (P c) /\ map fst (b_phis (code R c)) = map fst (b_phis (P c));
    i_old : forall c, In c dn -> block_ren N (Vin c) (P c) (code R c) (Vout c);
    i_tree : forall c, In c dn -> (idom D c = None -> forall v, Vin c v = None) /\ (forall d, idom D c = Some d -> In d dn /\ forall v, Vin c v = Vout d v);
    i_act : forall a l1 l2, dn = l1 ++ a :: l2 -> (forall y, In y l2 -> sdom a y) -> forall v, reach D R a v = Vout a v;
    i_slot : forall c x, In c bbs -> In x (b_phis (code R c)) -> slots_ok dn Vout c (pvar x) (snd x);
    i_var : forall c, map pvar (b_phis (code R c)) = map pvar (b_phis (P c)) }.

  Lemma inv_init : inv [] (mkr (fun _ => None) (fun _ _ => None) (fun _ _ => 0) (fun _ => 0) P) (fun _ _ => None) (fun _ _ => None).
  Proof.
    constructor.
    - exists (fun _ => []). split; [intros v; cbn [prev head cnt]; split; constructor|intros v k []].
    - intros v _. reflexivity.
    - intros c _. auto.
    - intros c [].
    - intros c [].
    - intros a l1 l2 E. destruct l1; discriminate.
    - intros c [n ops] Hc Hx. cbn [code] in Hx. destruct (HP c Hc) as (Q & _). destruct (Q n ops Hx) as [_ ->]. split; [constructor|]. split; [intros p i []|intros p k []].
    - reflexivity.
  Qed.

  Lemma inv_step dn R Vin Vout b : inv dn R Vin Vout -> (forall a, In a dn -> In a bbs) -> In b bbs -> ~ In b dn ->
    ((idom D b = None /\ dn = []) \/ exists l1 d l2, dn = l1 ++ d :: l2 /\ idom D b = Some d /\ forall y, In y l2 -> sdom d y) ->
    exists Vin' Vout', inv (dn ++ [b]) (do_block m D R b) Vin' Vout'.
  Proof.
    intros [(C & IR & IO) IU IN IOL IT IA IS IV] HB Hb Nb HT.
    destruct (IN b Nb) as (EO & EE & EP).
    pose proof (HP b Hb) as (P1 & P2 & P3 & P4).
    assert (Hbb : In b (D b)) by (apply HD; [exact Hb|split; [exact Hb|apply dom_refl]]).
    assert (HPV : forall c x, In c bbs -> In x (b_phis (P c)) -> has_phi (pvar x) (P c)).
    { intros c [n ops] Hc Hx. destruct (HP c Hc) as (Q1 & _). destruct (Q1 n ops Hx) as [Q2 _]. unfold has_phi, pvar. cbn [fst].
      destruct n as [v i]. unfold plain in Q2. cbn [snd fst] in *. subst i. apply (in_map fst) in Hx. exact Hx. }
    assert (HPR : forall c x, In c bbs -> In x (b_phis (code R c)) -> has_phi (pvar x) (P c)).
    { intros c x Hc Hx. apply (in_map pvar) in Hx. rewrite IV in Hx. apply in_map_iff in Hx. destruct Hx as (y & <- & Hy). apply HPV; assumption. }
    assert (GB : good_blk N (code R b)).
    { unfold good_blk. rewrite EO, EE. split; [|split; [exact P2|split; [|exact P3]]].
      - intros n ops Hn. assert (I : In n (map fst (b_phis (P b)))) by (rewrite <- EP; apply (in_map fst) in Hn; exact Hn).
        apply in_map_iff in I. destruct I as ([n' o'] & E & Hn'). cbn [fst] in E. subst n'. split; [apply (P1 n o' Hn')|].
        apply (HN b (fst n) Hb). right. apply (HPV b (n, o') Hb Hn').
      - intros n e Hn. apply (HN b (fst n) Hb). left. exists e. pose proof (P2 _ Hn) as [Q _]. destruct n as [v i]. unfold plain in Q. cbn [snd] in Q. subst i. exact Hn. }
    assert (US : usable m R b).
    { destruct Hm as [E|[E HM]]; [left; exact E|right]. split; [exact E|]. intros s x Hs Hx. rewrite EE in Hs.
      assert (Ed : In (b, s) edges) by (apply HE; auto). specialize (HM b s (pvar x) Ed (HPR s x (dst_in _ _ Ed) Hx)).
      unfold mentions, has_phi in *. rewrite EP, EO, EE. exact HM. }
    destruct (do_block_spec D N m b R C Hbb IR IU GB US) as (BR & KP & UN & RL & ph & M1 & M2 & BC).
    set (R' := do_block m D R b) in *.
    exists (fupd Vin b (reach D R b)), (fupd Vout b (reach D R' b)).
    assert (EV : forall (f : nat -> nat -> option nat) g c, In c dn -> fupd f b g c = f c).
    { intros f g c Hc. unfold fupd. destruct (Nat.eqb_spec c b) as [->|Q]; [contradiction|reflexivity]. }
    assert (EB : forall (f : nat -> nat -> option nat) g, fupd f b g b = g) by (intros f g; unfold fupd; rewrite Nat.eqb_refl; reflexivity).
    assert (BCF : forall c, c <> b -> b_ops (code R' c) = b_ops (code R c) /\ b_end (code R' c) = b_end (code R c) /\ map fst (b_phis (code R' c)) = map fst (b_phis (code R c))).
    { intros c Q. destruct (BC c) as (X1 & X2 & X3). destruct (X1 Q) as [X4 X5]. split; [exact X4|]. split; [exact X5|].
      destruct (Nat.eqb_spec c b); [contradiction|].
      destruct (in_dec Nat.eq_dec c (succs (b_end (code R b)))) as [I|I]; [eapply Forall2_filled_fst; apply (X2 I)|rewrite (X3 I); reflexivity]. }
    constructor.
    - destruct KP as (_ & _ & KP). apply (KP (dn ++ [b]) C); [apply in_or_app; right; left; reflexivity|exact IR|].
      intros v k Hk. apply in_or_app. left. apply (IO v k Hk).
    - exact UN.
    - intros c Hc. assert (Q : c <> b) by (intros ->; apply Hc; apply in_or_app; right; left; reflexivity).
      assert (Hc' : ~ In c dn) by (intros I; apply Hc; apply in_or_app; left; exact I).
      destruct (BCF c Q) as (X1 & X2 & X3). destruct (IN c Hc') as (Y1 & Y2 & Y3). rewrite X1, X2, X3. auto.
    - intros c Hc. apply in_app_or in Hc. destruct Hc as [Hc|[<-|[]]].
      + rewrite !EV by exact Hc. assert (Q : c <> b) by (intros ->; contradiction). destruct (BCF c Q) as (X1 & X2 & X3).
        specialize (IOL c Hc). unfold block_ren in *. rewrite X1, X2, X3. exact IOL.
      + rewrite !EB. unfold block_ren in *. rewrite <- EP, <- EO, <- EE. exact BR.
    - intros c Hc. apply in_app_or in Hc. destruct Hc as [Hc|[<-|[]]].
      + rewrite EV by exact Hc. destruct (IT c Hc) as [T1 T2]. split; [exact T1|]. intros d Ed. destruct (T2 d Ed) as [T3 T4].
        split; [apply in_or_app; left; exact T3|]. rewrite EV by exact T3. exact T4.
      + rewrite EB. split.
        * intros E. destruct HT as [[_ ->]|(l1 & d & l2 & _ & E2 & _)]; [|congruence].
          intros v. rewrite (reach_find D R C b v IR). destruct (C v) as [|k l] eqn:Ec; [reflexivity|]. destruct (IO v k). rewrite Ec. left; reflexivity.
        * intros d Ed. destruct HT as [[E _]|(l1 & d' & l2 & E1 & E2 & E3)]; [congruence|]. rewrite Ed in E2. injection E2 as <-.
          assert (Hd : In d dn) by (rewrite E1; apply in_or_app; right; left; reflexivity).
          split; [apply in_or_app; left; exact Hd|]. intros v. rewrite EV by exact Hd. rewrite <- (IA d l1 l2 E1 E3 v).
          rewrite (reach_find D R C b v IR), (reach_find D R C d v IR). apply find_ext. intros k Hk. unfold dom.
          destruct (idom_closest root edges bbs root_in dst_in AR D HD b d Hb Ed) as [[[K1 K2] K3] K4].
          pose proof (IO v k Hk) as Ok. assert (Qk : dblk R v k <> b) by (intros Q; apply Nb; rewrite <- Q; exact Ok).
          apply eq_true_iff_eq. rewrite !memb_in. rewrite (HD b _ Hb), (HD d _ K4). split; intros [Z1 Z2]; (split; [exact Z1|]).
          -- apply K3. split; assumption.
          -- eapply dom_trans; eassumption.
    - intros a l1 l2 E S v. apply app_last in E. destruct E as [(-> & -> & ->)|(l2' & -> & ->)].
      + rewrite EB. reflexivity.
      + assert (Ha : In a (l1 ++ a :: l2')) by (apply in_or_app; right; left; reflexivity).
        rewrite EV by exact Ha. rewrite <- (IA a l1 l2' eq_refl (fun y Hy => S y (in_or_app _ _ _ (or_introl Hy))) v).
        assert (Sb : sdom a b) by (apply S; apply in_or_app; right; left; reflexivity).
        destruct KP as (KP & _). apply KP.
        * intros z Hz. apply (HD a z (HB a Ha)) in Hz. apply HD; [exact Hb|]. split; [exact (proj1 Hz)|]. apply (dom_trans root edges z a b); [exact (proj2 Hz)|apply Sb].
        * intros Hz. apply (HD a b (HB a Ha)) in Hz. apply (sdom_irrefl root edges bbs AR a b Hb Sb). apply Hz.
    - intros c x Hcb Hx. destruct (BC c) as (_ & X2 & X3). cbv zeta in X2, X3. set (old := if Nat.eqb c b then ph else b_phis (code R c)) in *.
      assert (OLD : forall y, In y old -> exists z, In z (b_phis (code R c)) /\ pvar z = pvar y /\ snd z = snd y).
      { intros y Hy. unfold old in Hy. destruct (Nat.eqb_spec c b) as [Q|Q]; [rewrite Q|exists y; auto].
        apply (map_pair_in _ _ _ pvar snd ph (b_phis (code R b)) M2 M1 y Hy). }
      assert (SO : forall y, In y old -> slots_ok dn Vout c (pvar y) (snd y)).
      { intros y Hy. destruct (OLD y Hy) as (z & Hz & <- & <-). apply IS; assumption. }
      destruct (in_dec Nat.eq_dec c (succs (b_end (code R b)))) as [I|I].
      + assert (Ed : In (b, c) edges) by (apply HE; rewrite EE in I; auto).
        destruct (Forall2_in_r _ _ _ _ _ (X2 I) x Hx) as (y & Hy & F1 & F2).
        destruct (SO y Hy) as (S1 & S2 & S3). unfold pvar in *. rewrite F1.
        assert (NBs : ~ In b (map fst (snd y))).
        { intros Q. apply in_map_iff in Q. destruct Q as ([p i] & E & Q). cbn [fst] in E. subst p. apply Nb. apply (S2 b i Q). }
        assert (L : length (snd y) < 2).
        { destruct (OLD y Hy) as (z & Hz & _). pose proof (HPR c z (dst_in _ _ Ed) Hz) as Hph.
          destruct (H2 c) as (pl & L1 & L2); [intros Q; unfold has_phi in Hph; rewrite Q in Hph; destruct Hph|].
          assert (LL : length (b :: map fst (snd y)) <= length pl).
          { apply NoDup_incl_length; [constructor; assumption|]. intros q [<-|Hq]; [apply L2, Ed|]. apply in_map_iff in Hq. destruct Hq as ([p i] & <- & Hq).
            apply L2. apply (S2 p i Hq). }
          cbn [length] in LL. rewrite map_length in LL. lia. }
        destruct (F2 L) as (h & G1 & G2). split; [|split].
        * rewrite G2. destruct h as [k|]; [|exact S1]. rewrite map_app. cbn [map fst]. clear - S1 NBs.
          induction (map fst (snd y)) as [|a t IH]; [constructor; [intros []|constructor]|]. cbn [app]. apply NoDup_cons_iff in S1. destruct S1 as [A1 A2]. constructor.
          -- intros Q. apply in_app_or in Q. destruct Q as [Q|[Q|[]]]; [contradiction|]. subst a. apply NBs. left; reflexivity.
          -- apply IH; [exact A2|]. intros Q; apply NBs; right; exact Q.
        * intros p i Hpi. assert (Hor : In (p, i) (snd y) \/ exists k, h = Some k /\ p = b /\ i = (fst (fst y), Some k)).
          { rewrite G2 in Hpi. destruct h as [k|]; [|left; exact Hpi]. apply in_app_or in Hpi. destruct Hpi as [Q|[Q|[]]]; [left; exact Q|right].
            injection Q as <- <-. eauto. }
          destruct Hor as [Q|(k & -> & -> & ->)].
          -- destruct (S2 p i Q) as (T1 & T2 & T3). split; [apply in_or_app; left; exact T1|]. split; [exact T2|]. rewrite EV by exact T1. exact T3.
          -- split; [apply in_or_app; right; left; reflexivity|]. split; [exact Ed|]. rewrite EB. intros k' Hk'. rewrite (G1 k' Hk'). reflexivity.
        * intros p k Hp Hpe Hv. rewrite G2. apply in_app_or in Hp. destruct Hp as [Hp|[<-|[]]].
          -- rewrite EV in Hv by exact Hp. specialize (S3 p k Hp Hpe Hv). destruct h; [apply in_or_app; left|]; exact S3.
          -- rewrite EB in Hv. rewrite (G1 k Hv). apply in_or_app. right. left. reflexivity.
      + rewrite (X3 I) in Hx. destruct (SO x Hx) as (S1 & S2 & S3). split; [exact S1|]. split.
        * intros p i Hpi. destruct (S2 p i Hpi) as (T1 & T2 & T3). split; [apply in_or_app; left; exact T1|]. split; [exact T2|]. rewrite EV by exact T1. exact T3.
        * intros p k Hp Hpe Hv. apply in_app_or in Hp. destruct Hp as [Hp|[<-|[]]].
          -- rewrite EV in Hv by exact Hp. apply S3; assumption.
          -- exfalso. apply I. rewrite EE. apply HE in Hpe. apply Hpe.
    - intros c. destruct (BC c) as (_ & X2 & X3). cbv zeta in X2, X3. set (old := if Nat.eqb c b then ph else b_phis (code R c)) in *.
      assert (EL : map pvar old = map pvar (b_phis (P c))).
      { unfold old. destruct (Nat.eqb_spec c b) as [Q|Q]; [|apply IV]. rewrite <- IV, Q. exact M2. }
      destruct (in_dec Nat.eq_dec c (succs (b_end (code R b)))) as [I|I]; [|rewrite (X3 I); exact EL].
      rewrite <- EL. pose proof (Forall2_filled_fst _ _ _ _ (X2 I)) as F. rewrite !map_pvar, F. reflexivity.
  Qed.

  Lemma inv_fold l : forall dn R Vin Vout, inv dn R Vin Vout -> NoDup (dn ++ l) -> (forall a, In a (dn ++ l) -> In a bbs) ->
    (forall x, In x l -> (idom D x = None /\ exists t, dn ++ l = x :: t) \/ ordered root edges D (dn ++ l) x) ->
    exists Vin' Vout', inv (dn ++ l) (fold_left (do_block m D) l R) Vin' Vout'.
  Proof.
    induction l as [|b l IH]; intros dn R Vin Vout I ND HB HO; cbn [fold_left].
    - rewrite app_nil_r in *. eauto.
    - assert (Nb : ~ In b dn) by (intros Q; apply NoDup_remove_2 in ND; apply ND; apply in_or_app; left; exact Q).
      assert (HT : (idom D b = None /\ dn = []) \/ exists l1 d l2, dn = l1 ++ d :: l2 /\ idom D b = Some d /\ forall y, In y l2 -> sdom d y).
      { destruct (HO b (or_introl eq_refl)) as [(E & t & Et)|(l1 & d & l2 & l3 & E1 & E2 & E3)].
        - left. split; [exact E|]. destruct dn as [|a dn]; [reflexivity|]. cbn [app] in Et. injection Et as -> _. exfalso. apply Nb. left; reflexivity.
        - right. exists l1, d, l2. split; [|auto]. rewrite app_comm_cons, app_assoc in E1.
          assert (G : forall (a a' c c' : list nat), a ++ b :: c = a' ++ b :: c' -> ~ In b a -> NoDup (a ++ b :: c) -> a = a').
          { induction a as [|z a IHa]; intros a' c c' E Q NDa.
            - destruct a' as [|z' a']; [reflexivity|]. cbn [app] in E. injection E as E1' E2'. exfalso. cbn [app] in NDa. apply NoDup_cons_iff in NDa.
              apply (proj1 NDa). rewrite E2'. apply in_or_app. right; left; reflexivity.
            - destruct a' as [|z' a']; cbn [app] in E; injection E as E1' E2'; [exfalso; apply Q; left; exact E1'|].
              subst z'. f_equal. apply (IHa a' c c' E2'); [intros Z; apply Q; right; exact Z|]. cbn [app] in NDa. apply NoDup_cons_iff in NDa. apply NDa. }
          apply (G dn (l1 ++ d :: l2) l l3 E1 Nb ND). }
      destruct (inv_step dn R Vin Vout b I) as (Vin' & Vout' & I'); try assumption.
      { intros a Ha. apply HB. apply in_or_app; left; exact Ha. }
      { apply HB. apply in_or_app; right; left; reflexivity. }
      replace (dn ++ b :: l) with ((dn ++ [b]) ++ l) in * by (rewrite <- app_assoc; reflexivity).
      apply (IH _ _ _ _ I' ND HB). intros x Hx. apply HO. right; exact Hx.
  Qed.
End Inv.
