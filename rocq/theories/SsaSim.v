(* Executions of the renamed program. *)
Require Import ZArith List Arith Bool Lia.
From Verif Require Import DomModel DomProofs SsaModel SsaSpec SsaProofs SsaBlock SsaMain SsaInv.
Import ListNotations.

Lemma ops_ren_same N V l l' V' : ops_ren N V l l' V' -> forall v, (forall e, ~ In (IAssign (v, None) e) l) -> V' v = V v.
Proof.
  induction 1 as [V V' H|V e e' t t' V' H1 H2 IH|V w k e e' t t' V' H0 H1 H2 IH]; intros v Hv.
  - apply H.
  - apply IH. intros e0 He. apply (Hv e0). right; exact He.
  - rewrite IH; [|intros e0 He; apply (Hv e0); right; exact He]. unfold fupd. destruct (Nat.eqb_spec v w) as [->|Q]; [|reflexivity].
    exfalso. apply (Hv e). left; reflexivity.
Qed.
Lemma phis_ren_same N V l l' V' : phis_ren N V l l' V' -> forall v, ~ In (v, None) l -> V' v = V v /\ forall i, ~ In (v, i) l'.
Proof.
  induction 1 as [V V' H|V w k t t' V' H1 H2 IH]; intros v Hv.
  - split; [apply H|intros i []].
  - assert (Q : v <> w) by (intros ->; apply Hv; left; reflexivity).
    destruct (IH v) as [I1 I2]; [intros I; apply Hv; right; exact I|]. split.
    + rewrite I1. unfold fupd. destruct (Nat.eqb_spec v w); [contradiction|reflexivity].
    + intros i [E|I]; [congruence|apply (I2 i I)].
Qed.
Lemma phis_ren_def N V l l' V' : phis_ren N V l l' V' -> NoDup l -> forall v, In (v, None) l -> exists k, V' v = Some k /\ In (v, Some k) l'.
Proof.
  induction 1 as [V V' H|V w k t t' V' H1 H2 IH]; intros ND v Hv; [destruct Hv|].
  apply NoDup_cons_iff in ND. destruct ND as [N1 N2]. destruct Hv as [E|Hv].
  - injection E as <-. exists k. split; [|left; reflexivity]. destruct (phis_ren_same _ _ _ _ _ H2 w N1) as [-> _].
    unfold fupd. rewrite Nat.eqb_refl. reflexivity.
  - destruct (IH N2 v Hv) as (j & A & B). exists j. split; [exact A|right; exact B].
Qed.

Section Sim.
  Variable root : nat.
  Variable edges : list (nat * nat).
  Variable bbs : list nat.
  Hypothesis root_in : In root bbs.
  Hypothesis src_in : forall s d, In (s, d) edges -> In s bbs.
  Hypothesis dst_in : forall s d, In (s, d) edges -> In d bbs.
  Hypothesis root_no_pred : forall s, ~ In (s, root) edges.
  Hypothesis AR : forall b, In b bbs -> reachable root edges b.
  Variable D : dmap.
  Hypothesis HD : forall b a, In b bbs -> (In a (D b) <-> In a bbs /\ dominates root edges a b).
  Notation dominates := (dominates root edges).
  Notation sdom := (strictly_dominates root edges).
  Variable P : prog.
  Hypothesis HE : edges_of P bbs edges.
  Hypothesis HP : forall b, In b bbs -> plain_blk (P b).
  Variable N : nat -> Prop.
  Hypothesis HN : forall b v, In b bbs -> assigns v (P b) \/ has_phi v (P b) -> ~ N v.
  Hypothesis HF : placed root edges P.
  Variable dn : list nat.
  Hypothesis Hdn : forall c, In c dn <-> In c bbs.
  Variable R : rst.
  Variables Vin Vout : nat -> nat -> option nat.
  Hypothesis I : inv root edges bbs D P N dn R Vin Vout.
  Notation Q := (code R).

  Lemma has_phi_dec v B : has_phi v B \/ ~ has_phi v B.
  Proof.
    unfold has_phi. destruct (existsb (name_eqb (v, None)) (map fst (b_phis B))) eqn:E.
    - left. apply existsb_exists in E. destruct E as (x & Hx & E). destruct (name_eqb_spec (v, None) x) as [<-|?]; [exact Hx|discriminate].
    - right. intros H. assert (T : existsb (name_eqb (v, None)) (map fst (b_phis B)) = true); [|congruence].
      apply existsb_exists. exists (v, None). split; [exact H|apply name_eqb_refl].
  Qed.
  Lemma no_def c v : In c bbs -> ~ assigns v (P c) -> ~ has_phi v (P c) -> Vout c v = Vin c v.
  Proof.
    intros Hc H1 H2. destruct (i_old _ _ _ _ _ _ _ _ _ _ I c (proj2 (Hdn c) Hc)) as (V1 & A & B & _).
    rewrite (ops_ren_same _ _ _ _ _ B v); [|intros e He; apply H1; exists e; exact He].
    apply (phis_ren_same _ _ _ _ _ A v). exact H2.
  Qed.
  Lemma edge_ok p s v : In (p, s) edges -> ~ has_phi v (P s) -> Vin s v = Vout p v.
  Proof.
    intros Ed Hv. pose proof (src_in _ _ Ed) as Hp. pose proof (dst_in _ _ Ed) as Hs.
    assert (Qs : s <> root) by (intros ->; apply (root_no_pred p Ed)).
    destruct (idom_some root edges bbs root_in dst_in AR D HD s Hs Qs) as (d & Es).
    destruct (idom_closest root edges bbs root_in dst_in AR D HD s d Hs Es) as [Hcl Hd].
    destruct (i_tree _ _ _ _ _ _ _ _ _ _ I s (proj2 (Hdn s) Hs)) as [_ T]. destruct (T d Es) as [_ T2]. rewrite T2. clear T T2.
    assert (Hdp : dominates d p) by (destruct Hcl as [[A B] _]; eapply (dom_pred root edges d s); eauto).
    assert (G : forall n c, ndom bbs D c < n -> In c bbs -> dominates d c -> dominates c p -> Vout c v = Vout d v).
    { induction n as [|n IH]; intros c L Hc Hdc Hcp; [lia|]. destruct (Nat.eq_dec c d) as [->|Qc]; [reflexivity|].
      assert (NS : ~ sdom c s).
      { intros S. apply Qc. apply (dom_antisym root edges c d); [apply AR, Hd| |exact Hdc]. apply Hcl. exact S. }
      assert (FR : frontier root edges c s) by (exists p; auto).
      assert (ND : ~ assigns v (P c) /\ ~ has_phi v (P c)).
      { split; intros X; apply Hv; apply (HF c s v); auto. }
      rewrite (no_def c v Hc (proj1 ND) (proj2 ND)).
      assert (Qr : c <> root).
      { intros ->. apply Qc. symmetry. apply (dom_root_inv root edges d Hdc). }
      destruct (idom_some root edges bbs root_in dst_in AR D HD c Hc Qr) as (e & Ee).
      destruct (idom_closest root edges bbs root_in dst_in AR D HD c e Hc Ee) as [Hce He].
      destruct (i_tree _ _ _ _ _ _ _ _ _ _ I c (proj2 (Hdn c) Hc)) as [_ T]. destruct (T e Ee) as [_ ->].
      pose proof (ndom_lt root edges bbs root_in dst_in D HD e c (AR c Hc) Hce) as L2.
      apply IH; [lia|exact He| |].
      - apply Hce. split; [exact Hdc|congruence].
      - apply (dom_trans root edges e c p); [apply Hce|exact Hcp]. }
    symmetry. apply (G (S (ndom bbs D p)) p); [lia|exact Hp|exact Hdp|apply dom_refl].
  Qed.

  Variable opsem : nat -> Z -> Z -> Z.
  Definition agree (V : nat -> option nat) (st E : env) : Prop :=
    (forall v x, st (v, None) = Some x -> E (v, V v) = Some x) /\
    (forall v x, V v = None -> st (v, None) = Some x -> N v).
  Lemma eval_ren V st E e e' z : renx N V e e' -> agree V st E -> eval opsem st e = Some z -> eval opsem E e' = Some z.
  Proof.
    intros H [A1 A2]. revert z. induction H as [v i [H1 H2]|x|op a b a' b' Ha IHa Hb IHb]; intros z Ez; cbn [eval] in *.
    - destruct (V v) as [k|] eqn:E1.
      + rewrite (H1 k eq_refl), <- E1. apply A1, Ez.
      + rewrite (H2 (A2 v z E1 Ez)). rewrite <- E1. apply A1, Ez.
    - exact Ez.
    - destruct (eval opsem st a) as [x|] eqn:X; [|discriminate]. destruct (eval opsem st b) as [y|] eqn:Y; [|discriminate].
      rewrite (IHa x eq_refl), (IHb y eq_refl). exact Ez.
  Qed.
  Lemma agree_set V st E v k z : agree V st E -> ~ N v -> agree (fupd V v (Some k)) (eset st (v, None) (Some z)) (eset E (v, Some k) (Some z)).
  Proof.
    intros [A1 A2] Hv. split.
    - intros w x Hx. unfold eset in *. unfold fupd. destruct (Nat.eqb_spec w v) as [->|Qw].
      + rewrite name_eqb_refl in Hx. rewrite name_eqb_refl. exact Hx.
      + destruct (name_eqb_spec (w, None) (v, None)) as [X|X]; [congruence|].
        destruct (name_eqb_spec (w, V w) (v, Some k)) as [Y|Y]; [congruence|]. apply A1, Hx.
    - intros w x Hw Hx. unfold fupd in Hw. unfold eset in Hx. destruct (Nat.eqb_spec w v) as [->|Qw]; [discriminate|].
      destruct (name_eqb_spec (w, None) (v, None)) as [X|X]; [congruence|]. eapply A2; eauto.
  Qed.
  Lemma agree_ext V V' st E : (forall w, V' w = V w) -> agree V st E -> agree V' st E.
  Proof. intros H [A1 A2]. split; [intros v x Hx; rewrite H; apply A1, Hx|intros v x Hv Hx; rewrite H in Hv; eapply A2; eauto]. Qed.
  Lemma exec_ren V l l' V' : ops_ren N V l l' V' -> forall st E, agree V st E -> forall tr st1, exec opsem l st = (tr, Some st1) ->
    exists E1, exec opsem l' E = (tr, Some E1) /\ agree V' st1 E1.
  Proof.
    induction 1 as [V V' H|V e e' t t' V' H1 H2 IH|V v k e e' t t' V' H0 H1 H2 IH]; intros st E A tr st1 X; cbn [exec] in *.
    - injection X as <- <-. exists E. split; [reflexivity|]. eapply agree_ext; eauto.
    - destruct (eval opsem st e) as [z|] eqn:Ez; [|discriminate]. rewrite (eval_ren _ _ _ _ _ _ H1 A Ez).
      destruct (exec opsem t st) as [tr2 r2] eqn:E2. injection X as <- ->. destruct (IH st E A tr2 st1 E2) as (E1 & -> & A1). exists E1. auto.
    - destruct (eval opsem st e) as [z|] eqn:Ez; [|discriminate]. rewrite (eval_ren _ _ _ _ _ _ H1 A Ez).
      apply (IH _ _ (agree_set _ _ _ _ k z A H0) tr st1 X).
  Qed.

  Lemma enter_ok p s st E V1 : In s bbs -> phis_ren N (Vin s) (map fst (b_phis (P s))) (map fst (b_phis (Q s))) V1 ->
    (forall v x, ~ has_phi v (P s) -> st (v, None) = Some x -> E (v, Vin s v) = Some x /\ (Vin s v = None -> N v)) ->
    (forall v x ops, has_phi v (P s) -> st (v, None) = Some x -> slots_ok edges dn Vout s v ops -> phi_value p ops E = Some x) ->
    agree V1 st (enter p (b_phis (Q s)) E).
  Proof.
    intros Hs HR H1 H2. destruct (HP s Hs) as (_ & _ & _ & ND).
    assert (FD : forall n, match find (fun f : phi => name_eqb (fst f) n) (b_phis (Q s)) with
                           | None => ~ In n (map fst (b_phis (Q s)))
                           | Some x => In x (b_phis (Q s)) /\ fst x = n end).
    { intros n. destruct (find _ _) as [x|] eqn:Ef.
      - apply find_some in Ef. destruct Ef as [A B]. split; [exact A|]. destruct (name_eqb_spec (fst x) n); [assumption|discriminate].
      - intros X. apply in_map_iff in X. destruct X as (x & <- & Hx). pose proof (find_none _ _ Ef x Hx) as X. cbn beta in X. rewrite name_eqb_refl in X. discriminate. }
    assert (VP : forall v x, has_phi v (P s) -> st (v, None) = Some x -> exists k, V1 v = Some k /\ enter p (b_phis (Q s)) E (v, V1 v) = Some x).
    { intros v x Hv Hx. destruct (phis_ren_def _ _ _ _ _ HR ND v Hv) as (k & A & B). exists k. split; [exact A|]. rewrite A.
      unfold enter. specialize (FD (v, Some k)). destruct (find _ _) as [[n ops]|]; [|contradiction]. destruct FD as [F1 F2]. cbn [fst] in F2.
      apply (H2 v x ops Hv Hx). pose proof (i_slot _ _ _ _ _ _ _ _ _ _ I s (n, ops) Hs F1) as S. unfold pvar in S. cbn [fst snd] in S. rewrite F2 in S. exact S. }
    split.
    - intros v x Hx. destruct (has_phi_dec v (P s)) as [Hv|Hv]; [destruct (VP v x Hv Hx) as (k & _ & A); exact A|].
      destruct (phis_ren_same _ _ _ _ _ HR v Hv) as [A B]. rewrite A. unfold enter. specialize (FD (v, Vin s v)).
      destruct (find _ _) as [[n ops]|]; [|apply (H1 v x Hv Hx)]. exfalso. destruct FD as [F1 F2]. apply (B (Vin s v)). rewrite <- F2. apply in_map, F1.
    - intros v x Hn Hx. destruct (has_phi_dec v (P s)) as [Hv|Hv]; [destruct (VP v x Hv Hx) as (k & A & _); congruence|].
      destruct (phis_ren_same _ _ _ _ _ HR v Hv) as [A B]. rewrite A in Hn. apply (H1 v x Hv Hx). exact Hn.
  Qed.
  Lemma enter_edge p s st E V1 : In (p, s) edges -> agree (Vout p) st E ->
    phis_ren N (Vin s) (map fst (b_phis (P s))) (map fst (b_phis (Q s))) V1 -> agree V1 st (enter p (b_phis (Q s)) E).
  Proof.
    intros Ed [A1 A2] HR. pose proof (src_in _ _ Ed) as Hp. pose proof (dst_in _ _ Ed) as Hs.
    apply enter_ok; [exact Hs|exact HR| |].
    - intros v x Hv Hx. rewrite (edge_ok p s v Ed Hv). split; [apply A1, Hx|]. intros Hn. eapply A2; eauto.
    - intros v x ops Hv Hx (S1 & S2 & S3). specialize (A1 v x Hx). destruct (Vout p v) as [k|] eqn:E1.
      + specialize (S3 p k (proj2 (Hdn p) Hp) Ed E1). unfold phi_value.
        assert (F : find (fun y : nat * name => Nat.eqb (fst y) p) ops = Some (p, (v, Some k))).
        { clear - S1 S3. induction ops as [|[q n] ops IH]; [destruct S3|]. cbn [find fst]. destruct (Nat.eqb_spec q p) as [->|X].
          - cbn [map fst] in S1. apply NoDup_cons_iff in S1. destruct S1 as [N1 _]. destruct S3 as [->|S3]; [reflexivity|].
            exfalso. apply N1. apply (in_map fst) in S3. exact S3.
          - destruct S3 as [S3|S3]; [congruence|]. apply IH; [|exact S3]. cbn [map] in S1. apply NoDup_cons_iff in S1. apply S1. }
        rewrite F. exact A1.
      + exfalso. apply (HN s v Hs (or_intror Hv)). eapply A2; eauto.
  Qed.
  Lemma run_ok f : forall p b st E, In b bbs ->
    (forall V1, phis_ren N (Vin b) (map fst (b_phis (P b))) (map fst (b_phis (Q b))) V1 -> agree V1 st (enter p (b_phis (Q b)) E)) ->
    snd (run opsem false P f p b st) <> Stuck -> run opsem true Q f p b E = run opsem false P f p b st.
  Proof.
    induction f as [|f IH]; intros p b st E Hb HA NS; [reflexivity|]. cbn [run] in *.
    destruct (i_old _ _ _ _ _ _ _ _ _ _ I b (proj2 (Hdn b) Hb)) as (V1 & HR & HO & HEnd). specialize (HA V1 HR).
    destruct (exec opsem (b_ops (P b)) st) as [tr [st1|]] eqn:Ex; [|exfalso; apply NS; reflexivity].
    destruct (exec_ren _ _ _ _ HO st _ HA tr st1 Ex) as (E1 & -> & A1).
    assert (NX : forall d, In d (succs (b_end (P b))) -> In d bbs /\ forall V2, phis_ren N (Vin d) (map fst (b_phis (P d))) (map fst (b_phis (Q d))) V2 -> agree V2 st1 (enter b (b_phis (Q d)) E1)).
    { intros d Hd. assert (Ed : In (b, d) edges) by (apply HE; auto). split; [apply (dst_in _ _ Ed)|]. intros V2 H2. apply enter_edge; assumption. }
    destruct HEnd as [d|c c' t e Hc|x x' Hx].
    - destruct (NX d (or_introl eq_refl)) as [Hd HA2]. rewrite (IH b d st1 E1 Hd HA2); [reflexivity|].
      intros S. apply NS. destruct (run opsem false P f b d st1) as [tr2 r]. cbn [snd] in *. exact S.
    - destruct (eval opsem st1 c) as [z|] eqn:Ez; [|exfalso; apply NS; reflexivity]. rewrite (eval_ren _ _ _ _ _ _ Hc A1 Ez).
      assert (Hd : In (if Z.eqb z 0 then e else t) (succs (JCBr c t e))) by (cbn [succs]; destruct (Z.eqb z 0); [right; left|left]; reflexivity).
      destruct (NX _ Hd) as [Hdb HA2]. rewrite (IH b _ st1 E1 Hdb HA2); [reflexivity|].
      intros S. apply NS. destruct (run opsem false P f b _ st1) as [tr2 r]. cbn [snd] in *. exact S.
    - destruct (eval opsem st1 x) as [z|] eqn:Ez; [|exfalso; apply NS; reflexivity]. rewrite (eval_ren _ _ _ _ _ _ Hx A1 Ez). reflexivity.
  Qed.
  Lemma start_ok (init : nat -> option Z) p : (forall v, init v <> None -> N v) ->
    forall V1, phis_ren N (Vin root) (map fst (b_phis (P root))) (map fst (b_phis (Q root))) V1 ->
    agree V1 (start init) (enter p (b_phis (Q root)) (start init)).
  Proof.
    intros HI V1 HR. apply enter_ok; [exact root_in|exact HR| |].
    - intros v x _ Hx. cbn [start] in Hx.
      destruct (i_tree _ _ _ _ _ _ _ _ _ _ I root (proj2 (Hdn root) root_in)) as [T _].
      assert (Er : idom D root = None) by (apply (idom_ok root edges bbs root_in dst_in D HD root (AR root root_in)); reflexivity).
      rewrite (T Er). split; [exact Hx|]. intros _. apply HI. congruence.
    - intros v x ops Hv Hx _. exfalso. apply (HN root v root_in (or_intror Hv)). apply HI. cbn [start] in Hx. congruence.
  Qed.
End Sim.
