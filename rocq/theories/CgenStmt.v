(* The generated C code computes what the graph means: statements. *)
Require Import ZArith String List Bool Arith Lia Permutation.
From Verif Require Import CgenModel CgenSpec CgenProofs CgenSim CgenMain.
Import ListNotations.
Open Scope string_scope.
Open Scope list_scope.

(* the loop of the source semantics, named *)
Section SLoop.
  Variable opsem : string -> list Z -> Z.
  Variables (k : nat) (c : node) (b : stmt).
  Fixpoint sloop (j : nat) (st : store) : outcome store :=
    match j with
    | O => NoFuel
    | S j' =>
        match eval opsem st c with
        | None => Wrong
        | Some x => if Z.eqb x 0 then Done st
                    else match sexec opsem k b st with Done st1 => sloop j' st1 | r => r end
        end
    end.
  Lemma sexec_loop i st : sexec opsem k (SLoop i c b) st =
    match sexec opsem k i st with Done st0 => sloop k st0 | r => r end.
  Proof. reflexivity. Qed.
End SLoop.

Section Stmt.
  Variable pick : list string -> string -> string.
  Variable order : nat -> nat.
  Variable opsem : string -> list Z -> Z.
  Hypothesis pick_fresh : forall l p, ~ In (pick l p) l.
  Variable PN : node -> Prop.
  Hypothesis HU : forall n m, PN n -> PN m -> nid n = nid m -> n = m.
  Hypothesis HS : forall n m, PN n -> In m (subs n) -> PN m.
  Let gok := gen_ok pick order opsem pick_fresh PN HU HS.

  (* an expression used by a statement *)
  Lemma expr_ok fuel inl g e code r g' K D B : gen pick order fuel inl g e = Some (code, r, g') -> sinv PN g K D B -> PN e ->
    usable K D e = true ->
    exists B', sinv PN g' (subs e ++ K) D B' /\ incl B B' /\ tr B' (cget r) e /\ gext (map nid (subs e)) g g' /\
      (inl = true -> inlinable K e = true -> code = [] /\ B' = B) /\
      forall k E st v, agree opsem E B st -> eval opsem st e = Some v -> incl (ghead g') (keys (hd [] E)) -> E <> [] ->
        exists E', execl (cexec opsem k) code E = Done E' /\ agree opsem E' B' st /\ shape E' = shape E /\ ceval opsem E' (cget r) = Some v.
  Proof.
    intros H HI HP HUs. destruct (gok fuel inl _ _ _ _ _ _ _ _ H HI HP HUs) as (B' & I1 & L1 & T1 & X1 & N1 & R1).
    exists B'. repeat (split; [assumption|]). intros k E st v. eapply runs_expr; eauto.
  Qed.
  Lemma keep_nil n : keep [] n = true.
  Proof.
    unfold keep. replace (reads [] n) with false; [rewrite andb_false_r; reflexivity|].
    symmetry. destruct (reads [] n) eqn:E; [|reflexivity]. apply reads_iff in E as (m & _ & _ & []).
  Qed.

  Lemma seq_ok fuel s1 s2 : stmt_good pick order opsem PN fuel s1 -> stmt_good pick order opsem PN fuel s2 ->
    stmt_good pick order opsem PN fuel (SSeq s1 s2).
  Proof.
    intros IH1 IH2 g code g' K D K' D' B H HC HP HI. cbn [gen_stmt check snodes assigned] in *.
    destruct (gen_stmt _ _ _ g s1) as [[c1 g1]|] eqn:E1; [|discriminate].
    destruct (gen_stmt _ _ _ g1 s2) as [[c2 g2]|] eqn:E2; [|discriminate]. injection H as <- <-.
    destruct (check K D s1) as [[K1 D1]|] eqn:C1; [|discriminate].
    destruct (IH1 _ _ _ _ _ _ _ _ E1 C1 (fun n Hn => HP n (proj2 (in_app_iff _ _ _) (or_introl Hn))) HI) as (B1 & I1 & F1 & R1).
    destruct (IH2 _ _ _ _ _ _ _ _ E2 HC (fun n Hn => HP n (proj2 (in_app_iff _ _ _) (or_intror Hn))) I1) as (B2 & I2 & F2 & R2).
    exists B2. split; [exact I2|]. split.
    - intros x n Hx Hk. rewrite keep_app in Hk. apply andb_true_iff in Hk as [Hk1 Hk2]. apply F2; [|exact Hk2]. apply F1; assumption.
    - assert (X2 : gext (snids s2) g1 g2).
      { eapply gen_stmt_gext; eauto; [exact (s_mne _ _ _ _ _ I1)|exact (s_sne _ _ _ _ _ I1)|].
        intros n Hn. apply HP, in_app_iff; auto. }
      intros k E st HA Hd HE. cbn [sexec]. specialize (R1 k E st HA).
      assert (Hd1 : incl (ghead g1) (keys (hd [] E))) by (eapply incl_tran; [exact (x_incl _ _ _ X2)|exact Hd]).
      specialize (R1 Hd1 HE). rewrite execl_app.
      destruct (sexec opsem k s1 st) as [st1|v| |]; [|rewrite R1; reflexivity|exact I|rewrite R1; reflexivity].
      destruct R1 as (E1' & -> & A1 & S1). destruct (shape_hd _ _ S1) as [S1a S1b].
      specialize (R2 k E1' st1 A1). rewrite S1a in R2. specialize (R2 Hd (S1b HE)).
      destruct (sexec opsem k s2 st1) as [st2|v| |]; try assumption.
      destruct R2 as (E2' & H1 & H2 & H3). exists E2'. split; [exact H1|]. split; [exact H2|congruence].
  Qed.

  Lemma assign_ok fuel v e : stmt_good pick order opsem PN fuel (SAssign v e).
  Proof.
    intros g code g' K D K' D' B H HC HP HI. cbn [gen_stmt check snodes assigned] in *.
    destruct (gen _ _ _ _ g v) as [[[c1 [x|]] g1]|] eqn:E1; [|discriminate|discriminate].
    destruct (gen _ _ _ _ g1 e) as [[[c2 r] g2]|] eqn:E2; [|discriminate]. injection H as <- <-.
    destruct (is_var v && negb (memb v D) && usable K D e) eqn:EC; [|discriminate].
    apply andb_true_iff in EC as [EC HUs]. apply andb_true_iff in EC as [HV HDv]. apply negb_true_iff in HDv.
    injection HC as <- <-.
    assert (HPv : PN v) by (apply HP, in_app_iff; left; apply subs_self).
    assert (HPe : PN e) by (apply HP, in_app_iff; right; apply subs_self).
    destruct (lhs_ok pick order opsem pick_fresh PN HU HS fuel g v e c1 x g1 K D B E1 HI HPv HV HDv HUs HPe) as (B1 & I1 & Hx & -> & F1 & R1).
    assert (HUs1 : usable (v :: K) D e = true).
    { eapply usable_mono; [exact HUs|]. intros m Hm. rewrite memb_cons, Hm. apply orb_true_r. }
    destruct (expr_ok _ _ _ _ _ _ _ _ _ _ E2 I1 HPe HUs1) as (B2 & I2 & L2 & T2 & X2 & _ & R2).
    set (KK := v :: subs e ++ K) in *.
    assert (I3 : sinv PN g2 KK D B2).
    { eapply sinv_K; [exact I2| |].
      - intros n [<-|Hn]; [exact HPv|]. apply in_app_iff in Hn as [Hn|Hn]; [exact (HS _ _ HPe Hn)|exact (s_KP _ _ _ _ _ HI n Hn)].
      - intros n. unfold KK. rewrite memb_cons, !memb_app, memb_cons. destruct (Nat.eqb _ _), (memb n (subs e)); reflexivity. }
    exists (kept [nid v] B2). split; [change (sinv PN g2 KK (D ++ stale KK [nid v]) (kept [nid v] B2)); apply sinv_stale; assumption|]. split.
    - intros y n Hy Hk. apply in_kept. split; [|exact Hk]. apply L2. apply F1; assumption.
    - intros k E st HA Hd HE. cbn [sexec]. destruct (eval opsem st e) as [val|] eqn:EV; [|exact I].
      assert (Hd1 : incl (ghead g1) (keys (hd [] E))) by (eapply incl_tran; [exact (x_incl _ _ _ X2)|exact Hd]).
      destruct (R1 E st HA Hd1 HE) as (st1 & A1 & O1 & EV1).
      destruct (R2 k E st1 val A1) as (E2' & F2 & A2 & S2 & V2); [congruence|exact Hd|exact HE|].
      assert (Hx2 : In (x, v) B2) by (apply L2; exact Hx).
      assert (HLk : elook x E2' <> None).
      { specialize (A2 x v Hx2). destruct v as [i l t|?|]; try discriminate. rewrite A2. discriminate. }
      destruct (eset_spec x val E2' HLk) as (E3 & F3 & S3 & L3).
      exists E3. cbn [app]. rewrite execl_app, F2. cbn [execl cexec]. rewrite V2, F3.
      split; [reflexivity|]. split; [|congruence].
      eapply agree_assign; eauto.
  Qed.

  Lemma if_ok fuel c t e : stmt_good pick order opsem PN fuel t -> stmt_good pick order opsem PN fuel e ->
    stmt_good pick order opsem PN fuel (SIf c t e).
  Proof.
    intros IHt IHe g code g' K D K' D' B H HC HP HI. cbn [gen_stmt check snodes assigned] in *.
    destruct (gen _ _ _ _ g c) as [[[c0 r] g0]|] eqn:E0; [|discriminate].
    destruct (gen_stmt _ _ _ _ t) as [[c1 g1]|] eqn:E1; [|discriminate].
    destruct (gen_stmt _ _ _ _ e) as [[c2 g3]|] eqn:E2; [|discriminate]. injection H as <- <-.
    destruct (usable K D c) eqn:HUs; [|discriminate].
    destruct (check (subs c ++ K) D t) as [[Kt Dt]|] eqn:Ct; [|discriminate].
    destruct (check (subs c ++ K) D e) as [[Ke De]|] eqn:Ce; [|discriminate]. injection HC as <- <-.
    assert (HPc : PN c) by (apply HP, in_app_iff; left; apply subs_self).
    assert (HPt : forall n, In n (snodes t) -> PN n) by (intros n Hn; apply HP; rewrite !in_app_iff; auto).
    assert (HPe : forall n, In n (snodes e) -> PN n) by (intros n Hn; apply HP; rewrite !in_app_iff; auto).
    destruct (expr_ok _ _ _ _ _ _ _ _ _ _ E0 HI HPc HUs) as (B0 & I0 & L0 & T0 & X0 & _ & R0).
    pose proof (sinv_open_code PN _ _ _ _ (sinv_open_memo PN _ _ _ _ I0)) as I0'.
    destruct (IHt _ _ _ _ _ _ _ _ E1 Ct HPt I0') as (Bt & It & Ft & Rt).
    assert (X1 : gext (snids t) (open_code (open_memo g0)) g1).
    { eapply gen_stmt_gext; eauto; discriminate. }
    destruct (gext_branch _ _ _ X1) as [EB1 N1]. rewrite EB1 in E2.
    destruct (IHe _ _ _ _ _ _ _ _ E2 Ce HPe I0') as (Be & Ie & Fe & Re).
    assert (X2 : gext (snids e) (open_code (open_memo g0)) g3).
    { eapply gen_stmt_gext; eauto; discriminate. }
    destruct (gext_branch _ _ _ X2) as [EB2 N2]. rewrite EB2.
    exists (kept (assigned t ++ assigned e) B0). split; [apply sinv_stale; assumption|]. split.
    - intros x n Hx Hk. apply in_kept. split; [apply L0; exact Hx|exact Hk].
    - intros k E st HA Hd HE. cbn [sexec]. destruct (eval opsem st c) as [val|] eqn:EV; [|exact I].
      destruct (R0 k E st val HA EV Hd HE) as (E0' & F0 & A0 & S0 & V0). destruct (shape_hd _ _ S0) as [_ S0b].
      rewrite execl_app, F0. cbn [execl cexec]. rewrite V0.
      assert (HB : forall x n, In (x, n) B0 -> In x (concat (scopes g0))) by (intros x n Hx; exact (proj1 (s_B _ _ _ _ _ I0 x n Hx))).
      destruct (Z.eqb val 0).
      + pose proof (level_runs opsem e c2 g3 (level_names g3) B0 Be (kept (assigned t ++ assigned e) B0) k E0' st Re A0 eq_refl) as HL.
        assert (Q1 : forall x n, In (x, n) B0 -> ~ In x (level_names g3)) by (intros x n Hx Hin; exact (N2 x Hin (HB x n Hx))).
        assert (Q2 : forall x n, In (x, n) (kept (assigned t ++ assigned e) B0) -> In (x, n) B0 /\ In (x, n) Be).
        { intros x n Hx. apply in_kept in Hx as [Hx Hk]. split; [exact Hx|]. rewrite keep_app in Hk. apply andb_true_iff in Hk as [Hk1 Hk2].
          apply Fe; assumption. }
        specialize (HL Q1 Q2 (S0b HE)). destruct (sexec opsem k e st) as [st'|v| |]; [|rewrite HL; reflexivity|exact I|rewrite HL; reflexivity].
        destruct HL as (E' & -> & H2 & H3). exists E'. split; [reflexivity|]. split; [exact H2|congruence].
      + pose proof (level_runs opsem t c1 g1 (level_names g1) B0 Bt (kept (assigned t ++ assigned e) B0) k E0' st Rt A0 eq_refl) as HL.
        assert (Q1 : forall x n, In (x, n) B0 -> ~ In x (level_names g1)) by (intros x n Hx Hin; exact (N1 x Hin (HB x n Hx))).
        assert (Q2 : forall x n, In (x, n) (kept (assigned t ++ assigned e) B0) -> In (x, n) B0 /\ In (x, n) Bt).
        { intros x n Hx. apply in_kept in Hx as [Hx Hk]. split; [exact Hx|]. rewrite keep_app in Hk. apply andb_true_iff in Hk as [Hk1 Hk2].
          apply Ft; assumption. }
        specialize (HL Q1 Q2 (S0b HE)). destruct (sexec opsem k t st) as [st'|v| |]; [|rewrite HL; reflexivity|exact I|rewrite HL; reflexivity].
        destruct HL as (E' & -> & H2 & H3). exists E'. split; [reflexivity|]. split; [exact H2|congruence].
  Qed.

  Lemma loop_ok fuel i c b : stmt_good pick order opsem PN fuel i -> stmt_good pick order opsem PN fuel b ->
    stmt_good pick order opsem PN fuel (SLoop i c b).
  Proof.
    intros IHi IHb g code g' K D K' D' B H HC HP HI. cbn [gen_stmt check snodes assigned] in *.
    destruct (gen_stmt _ _ _ g i) as [[c0 g0]|] eqn:E0; [|discriminate].
    destruct (gen _ _ _ _ g0 c) as [[[c1 r] g1]|] eqn:E1; [|discriminate].
    destruct (gen_stmt _ _ _ _ b) as [[c2 g2]|] eqn:E2; [|discriminate]. injection H as <- <-.
    destruct (check K D i) as [[K1 D1]|] eqn:C1; [|discriminate].
    destruct (usable K1 (D1 ++ stale K1 (assigned b)) c && inlinable K1 c) eqn:EC; [|discriminate].
    apply andb_true_iff in EC as [HUs HIn].
    destruct (check (subs c ++ K1) (D1 ++ stale K1 (assigned b)) b) as [[K3 D3]|] eqn:C2; [|discriminate]. injection HC as <- <-.
    assert (HPi : forall n, In n (snodes i) -> PN n) by (intros n Hn; apply HP; rewrite !in_app_iff; auto).
    assert (HPb : forall n, In n (snodes b) -> PN n) by (intros n Hn; apply HP; rewrite !in_app_iff; auto).
    assert (HPc : PN c) by (apply HP; rewrite !in_app_iff; right; left; apply subs_self).
    destruct (IHi _ _ _ _ _ _ _ _ E0 C1 HPi HI) as (B0 & I0 & F0 & R0).
    pose proof (sinv_stale PN HU _ _ _ _ (assigned b) I0) as I0s. set (D2 := D1 ++ stale K1 (assigned b)) in *.
    destruct (expr_ok _ _ _ _ _ _ _ _ _ _ E1 I0s HPc HUs) as (B1 & I1 & _ & T1 & X1 & N1 & _).
    destruct (N1 eq_refl HIn) as [-> ->]. clear N1. set (B1 := kept (assigned b) B0) in *. set (K2 := subs c ++ K1) in *.
    destruct (IHb _ _ _ _ _ _ _ _ E2 C2 HPb (sinv_open_code PN _ _ _ _ I1)) as (B3 & I3 & F3 & R3).
    assert (X2 : gext (snids b) (open_code g1) g2).
    { eapply gen_stmt_gext; eauto; [exact (s_mne _ _ _ _ _ I1)|discriminate]. }
    destruct (gext_open_code _ _ _ X2 (s_mne _ _ _ _ _ I1) (s_sne _ _ _ _ _ I1)) as (X3 & N2 & ES2).
    assert (HB13 : forall x n, In (x, n) B1 -> In (x, n) B1 /\ In (x, n) B3).
    { intros x n Hx. split; [exact Hx|]. apply F3; [exact Hx|]. apply in_kept in Hx. apply Hx. }
    exists B1. split; [|split].
    - (* after the loop *)
      set (F := filter (fun n => negb (is_cst n) && negb (memb n K2)) (snodes b)).
      assert (HmD : forall n, memb n (D2 ++ F) = false -> memb n D2 = false /\ memb n F = false).
      { intros n Hn. rewrite memb_app in Hn. apply orb_false_iff in Hn. exact Hn. }
      assert (HOld : forall n, PN n -> is_cst n = false -> memb n (D2 ++ F) = false -> has g2 (nid n) -> has g1 (nid n)).
      { intros n Hn Hc Hd Hh. destruct (HmD n Hd) as [Hd1 Hd2]. destruct (x_keys _ _ _ X3 (nid n) Hh) as [Hg|Hk]; [exact Hg|].
        apply (s_K _ _ _ _ _ I1 n Hn Hc Hd1). destruct (memb n K2) eqn:EK; [reflexivity|]. exfalso.
        apply in_map_iff in Hk as (m & Em & Hm). assert (m = n) by (apply HU; auto). subst m.
        rewrite (memb_in n F) in Hd2; [discriminate|]. apply filter_In. split; [exact Hm|]. rewrite Hc, EK. reflexivity. }
      destruct I1 as [h1 h2 h3 h4 h5 h6 h7 h8 h9 h10 h11 h12 h13]. constructor; auto.
      + exact (x_mne _ _ _ X3).
      + exact (x_sne _ _ _ X3).
      + intros n Hn. apply in_app_iff in Hn as [Hn|Hn]; [auto|]. apply filter_In in Hn as [Hn Hs]. split; [auto|].
        apply andb_true_iff in Hs as [Hs _]. apply negb_true_iff in Hs. exact Hs.
      + intros n Hn Hc Hd. destruct (HmD n Hd) as [Hd1 Hd2]. rewrite (h5 n Hn Hc Hd1). split.
        * intros Hh. unfold has in *. destruct (mlookup (nid n) (memo g1)) as [cc|] eqn:Ec; [|congruence].
          rewrite (x_mono _ _ _ X3 _ _ Ec). discriminate.
        * apply HOld; assumption.
      + intros n cc Hn Hd Hc. destruct (HmD n Hd) as [Hd1 Hd2]. destruct (is_cst n) eqn:Ecst.
        * assert (Hd3 : memb n D3 = false) by (eapply cst_not_dead; eauto).
          pose proof (s_tr _ _ _ _ _ I3 n cc Hn Hd3 Hc) as HT. destruct n as [|j v|]; try discriminate.
          destruct (mlookup j (memo g1)) as [cc'|] eqn:Ec'.
          -- pose proof (x_mono _ _ _ X3 _ _ Ec') as Q. cbn [nid close_code memo] in *. rewrite Hc in Q. injection Q as <-.
             apply (h6 _ _ Hn Hd1 Ec').
          -- inversion HT as [x n Hx E|i0 v0 E|]; subst; [pose proof (s_Bc _ _ _ _ _ I3 _ _ Hx); discriminate|]. apply tr_cst.
        * apply (h6 n cc Hn Hd1). assert (Hh : has g1 (nid n)) by (apply HOld; auto; unfold has; change (memo g2) with (memo (close_code g2)); rewrite Hc; discriminate).
          unfold has in Hh. destruct (mlookup (nid n) (memo g1)) as [cc'|] eqn:Ec'; [|congruence].
          pose proof (x_mono _ _ _ X3 _ _ Ec') as Q. rewrite Hc in Q. exact (eq_sym Q).
      + rewrite ES2. exact h7.
      + intros x n Hx HL. pose proof (h10 x n Hx HL) as Hh. unfold has in *.
        destruct (mlookup (nid n) (memo g1)) as [cc|] eqn:Ec; [|congruence]. rewrite (x_mono _ _ _ X3 _ _ Ec). discriminate.
      + intros n m Hn Hd Hh Hm Hcm Hdm. destruct (HmD n Hd) as [Hd1 _]. destruct (HmD m Hdm) as [Hdm1 _].
        assert (Hcn : is_cst n = false).
        { destruct n as [|j v|]; try reflexivity. destruct Hm as [<-|[]]. discriminate. }
        assert (Hg : has g1 (nid m)) by (eapply (h12 n m); eauto).
        unfold has in *. destruct (mlookup (nid m) (memo g1)) as [cc|] eqn:Ec; [|congruence]. rewrite (x_mono _ _ _ X3 _ _ Ec). discriminate.
    - intros x n Hx Hk. rewrite keep_app in Hk. apply andb_true_iff in Hk as [Hk1 Hk2].
      apply in_kept. split; [apply F0; assumption|exact Hk2].
    - intros k E st HA Hd HE. rewrite sexec_loop.
      assert (Hd0 : incl (ghead g0) (keys (hd [] E))).
      { eapply incl_tran; [exact (x_incl _ _ _ X1)|]. eapply incl_tran; [exact (x_incl _ _ _ X3)|exact Hd]. }
      specialize (R0 k E st HA Hd0 HE). rewrite execl_app.
      destruct (sexec opsem k i st) as [st0|v| |]; [|rewrite R0; reflexivity|exact I|rewrite R0; reflexivity].
      destruct R0 as (E0' & -> & A0 & S0). destruct (shape_hd _ _ S0) as [_ S0b]. specialize (S0b HE).
      cbn [app execl cexec].
      assert (A1 : agree opsem E0' B1 st0) by (eapply agree_incl; [exact A0|]; intros [x n] Hx; apply in_kept in Hx; apply Hx).
      assert (HB : forall x n, In (x, n) B1 -> ~ In x (level_names g2)).
      { intros x n Hx Hin. apply (N2 x Hin). exact (proj1 (s_B _ _ _ _ _ I1 x n Hx)). }
      assert (HLoop : forall j E1 st1, agree opsem E1 B1 st1 -> E1 <> [] -> 
        match sloop opsem k c b j st1 with
        | Done st' => exists E', cloop opsem (cget r) (fun E => leave (execl (cexec opsem k) c2 (fresh_scope (level_names g2) :: E))) j E1 = Done E' /\ agree opsem E' B1 st' /\ shape E' = shape E1
        | Returned v => cloop opsem (cget r) (fun E => leave (execl (cexec opsem k) c2 (fresh_scope (level_names g2) :: E))) j E1 = Returned v
        | NoFuel => cloop opsem (cget r) (fun E => leave (execl (cexec opsem k) c2 (fresh_scope (level_names g2) :: E))) j E1 = NoFuel
        | Wrong => True
        end).
      { induction j as [|j IHj]; intros E1' st1 HA1 HE1; cbn [sloop cloop]; [reflexivity|].
        rewrite (tr_eval opsem E1' B1 st1 HA1 _ _ T1). destruct (eval opsem st1 c) as [val|]; [|exact I].
        destruct (Z.eqb val 0); [exists E1'; auto|].
        pose proof (level_runs opsem b c2 g2 (level_names g2) B1 B3 B1 k E1' st1 R3 HA1 eq_refl HB HB13 HE1) as HL.
        destruct (sexec opsem k b st1) as [st2|v| |]; [|rewrite HL; reflexivity|exact I|rewrite HL; reflexivity].
        destruct HL as (E2' & -> & A2 & S2). destruct (shape_hd _ _ S2) as [_ S2b].
        specialize (IHj E2' st2 A2 (S2b HE1)). destruct (sloop opsem k c b j st2) as [st3|v| |]; try assumption.
        destruct IHj as (E3' & H1 & H2 & H3). exists E3'. split; [exact H1|]. split; [exact H2|congruence]. }
      specialize (HLoop k E0' st0 A1 S0b).
      destruct (sloop opsem k c b k st0) as [st1|v| |]; [|rewrite HLoop; reflexivity|exact I|rewrite HLoop; reflexivity].
      destruct HLoop as (E1' & -> & A2 & S2). exists E1'. split; [reflexivity|]. split; [exact A2|congruence].
  Qed.
End Stmt.
