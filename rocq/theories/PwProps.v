(* Properties of the piecewise polynomial approximations (C123). *)
From Coq Require Import ZArith QArith Qabs Qround List Bool Arith Lia Lqa Setoid.
From Verif Require Import QUtil RoundSpec IndexModel IndexProps PwModel PwSpec PwProofs.
Import ListNotations.
Open Scope Q_scope.

(* ------------------------------------------------------------------ *)
(* what the generated graph computes                                    *)
(* ------------------------------------------------------------------ *)
Definition row_of (t : tables) (i : nat) : list Q := nth i (t_rows t) [].
Definition off_of (t : tables) (i : nat) : Q := nth i (t_off t) 0.
Definition top (t : tables) (i : nat) : Q := nth (t_maxd t) (row_of t i) 0.

(* the accumulator starts with the coefficient of largest degree, which the
   loop then adds once more: the value is the polynomial plus c_d * r^(d+1) *)
Theorem pw_eval_value : forall t i x, length (row_of t i) = S (t_maxd t) ->
  pw_eval (fun q => q) t i x ==
  poly_at (row_of t i) (x - off_of t i) + top t i * qpow (x - off_of t i) (S (t_maxd t)).
Proof.
  intros t i x L. unfold pw_eval. fold (row_of t i). fold (off_of t i). rewrite horner_exact.
  unfold head. rewrite <- L at 2. rewrite map_nth_seq. unfold top. ring.
Qed.

(* so the value is the one of the polynomial only when the coefficient of
   largest degree is zero or at the offset itself *)
Theorem pw_eval_polynomial_iff : forall t i x, length (row_of t i) = S (t_maxd t) ->
  (pw_eval (fun q => q) t i x == poly_at (row_of t i) (x - off_of t i) <-> top t i == 0 \/ x == off_of t i).
Proof.
  intros t i x L. rewrite pw_eval_value by exact L. set (P := poly_at _ _). split.
  - intros H. assert (E : top t i * qpow (x - off_of t i) (S (t_maxd t)) == 0) by lra.
    apply Qmult_integral in E. destruct E as [E|E]; [left; exact E|right]. apply qpow_zero in E. lra.
  - intros [E|E]; [rewrite E; ring|]. cbn [qpow]. setoid_replace (x - off_of t i) with 0 at 1 by lra. ring.
Qed.

(* with a rounding of relative error u after each operation *)
Theorem pw_eval_rounded : forall rnd u t i x, 0 <= u -> rel_rounding u rnd -> length (row_of t i) = S (t_maxd t) ->
  let r := rnd (x - off_of t i) in
  let extra := top t i * qpow r (S (t_maxd t)) in
  Qabs (pw_eval rnd t i x - (poly_at (row_of t i) r + extra))
  <= (qpow (1 + u) (S (t_maxd t)) - 1) * (Qabs extra + abs_poly_at (row_of t i) r).
Proof.
  intros rnd u t i x Hu Hr L r extra. unfold pw_eval. fold (row_of t i). fold (off_of t i). fold r. fold (top t i).
  pose proof (horner_rounded rnd u Hu Hr (S (t_maxd t)) (row_of t i) r (top t i)) as H.
  rewrite horner_exact in H.
  assert (Eh : head (row_of t i) (S (t_maxd t)) = row_of t i) by (unfold head; rewrite <- L; apply map_nth_seq).
  rewrite Eh in H.
  unfold extra. rewrite Qabs_Qmult, qpow_abs.
  setoid_replace (poly_at (row_of t i) r + top t i * qpow r (S (t_maxd t)))
    with (top t i * qpow r (S (t_maxd t)) + poly_at (row_of t i) r) by ring. exact H.
Qed.

(* ------------------------------------------------------------------ *)
(* what the tables contain                                              *)
(* ------------------------------------------------------------------ *)
(* degree asked for a sub-interval *)
Definition asked (md : option nat) (s : sub) : nat := match md with Some d => d | None => s_guess s end.

(* the polynomial answered for a sub-interval *)
Definition answered (d : nat) (s : sub) (x : Q) : Q :=
  match d with
  | O => s_cst s
  | S _ => match s_ans s with ABuilt p _ => mono_sum p x | AFailed c _ _ => c end
  end.
(* Sollya answers a polynomial of the degree asked, each coefficient once *)
Definition answer_ok (d : nat) (s : sub) : Prop :=
  match s_ans s with
  | ABuilt p _ => simple p /\ forall k, In k (degrees p) -> (k <= d)%nat
  | AFailed _ _ _ => True
  end.

Lemma answer_deg_ok : forall d s, answer_ok d s -> deg_ok s d.
Proof. intros d s H. unfold answer_ok, deg_ok in *. destruct (s_ans s); tauto. Qed.

Lemma fold_max_ge : forall l a, (a <= fold_left Nat.max l a)%nat /\ forall d, In d l -> (d <= fold_left Nat.max l a)%nat.
Proof.
  induction l as [|b l IH]; intros a; cbn [fold_left]; [split; [lia|intros d []]|].
  destruct (IH (Nat.max a b)) as [H1 H2]. split; [lia|]. intros d [<-|H]; [lia|auto].
Qed.

Lemma generate_inv : forall k eps md subs t g, generate k eps md subs = Ok (t, g) ->
  let degs := map (asked md) subs in
  exists m l, t = Tab (map s_off subs) (t_maxd t) (t_rows t) m /\ g = Gps (t_maxd t) m l /\
    length l = length subs /\ length (t_rows t) = length subs /\
    m = fold_left newer (map sp_err l) (mk_err k (Some 0)) /\ e_kind m = k /\
    Forall2 (fun sd ra => gen_sub k eps (t_maxd t) (snd sd) (fst sd) = Ok ra) (combine subs degs) (combine (t_rows t) l) /\
    (forall s, In s subs -> (asked md s <= t_maxd t)%nat) /\ (match md with Some d => t_maxd t = d | None => True end).
Proof.
  intros k eps md subs t g H degs. unfold generate in H.
  assert (E : exists maxd, (match md with Some d => Ok d | None => list_max1 (map s_guess subs) end) = Ok maxd /\
              (forall s, In s subs -> (asked md s <= maxd)%nat) /\ (match md with Some d => maxd = d | None => True end)).
  { destruct md as [d|].
    - exists d. split; auto.
    - destruct subs as [|s0 subs]; [cbn in H; discriminate|]. cbn [list_max1 map] in *.
      exists (fold_left Nat.max (map s_guess subs) (s_guess s0)). split; auto. split; auto.
      destruct (fold_max_ge (map s_guess subs) (s_guess s0)) as [G1 G2].
      intros s [<-|I]; cbn [asked]; [exact G1|]. apply G2. apply in_map. exact I. }
  destruct E as (maxd & E & Hd & Hm). rewrite E in H. cbn [bind] in H.
  assert (Ed : (match md with Some d => map (fun _ => d) subs | None => map s_guess subs end) = degs).
  { unfold degs, asked. destruct md; reflexivity. }
  rewrite Ed in H. destruct (gen_loop _ _ _ _ _ _) as [[[[offs rows] m] l]|] eqn:G; [|discriminate]. cbn [bind] in H.
  injection H as <- <-. apply gen_loop_spec in G; [|unfold degs; rewrite map_length; reflexivity|reflexivity].
  destruct G as (G1 & G2 & G3 & G4 & G5 & G6). exists m, l. cbn [t_maxd t_rows]. subst offs.
  repeat (split; [solve [auto]|]). auto.
Qed.

Lemma forall2_combine_nth : forall A B C D (P : A * B -> C * D -> Prop) (la : list A) (lb : list B) (lc : list C) (ld : list D),
  length lb = length la -> length lc = length la -> length ld = length la ->
  Forall2 P (combine la lb) (combine lc ld) ->
  forall i a b, nth_error la i = Some a -> nth_error lb i = Some b ->
  exists c d, nth_error lc i = Some c /\ nth_error ld i = Some d /\ P (a, b) (c, d).
Proof.
  intros A B C D P. induction la as [|a0 la IH]; intros lb lc ld L1 L2 L3 H i a b Ha Hb; [destruct i; discriminate|].
  destruct lb as [|b0 lb]; [discriminate|]. destruct lc as [|c0 lc]; [discriminate|]. destruct ld as [|d0 ld]; [discriminate|].
  cbn [combine] in H. inversion H; subst. destruct i as [|i]; cbn in Ha, Hb.
  - injection Ha as <-. injection Hb as <-. exists c0, d0. cbn. auto.
  - cbn. eapply IH; eauto.
Qed.

(* each row holds the polynomial answered by Sollya, in order of index, and the
   offsets are the lower bounds of the sub-intervals *)
Theorem generated_tables : forall k eps md subs t g i s, generate k eps md subs = Ok (t, g) ->
  nth_error subs i = Some s -> answer_ok (asked md s) s ->
  off_of t i = s_off s /\ length (row_of t i) = S (t_maxd t) /\
  forall x, poly_at (row_of t i) x == answered (asked md s) s x.
Proof.
  intros k eps md subs t g i s H Hs Ha. apply generate_inv in H. destruct H as (m & l & Et & Eg & L1 & L2 & Em & Ek & F & Hd & _).
  assert (Hn : nth_error (map (asked md) subs) i = Some (asked md s)) by (apply map_nth_error; exact Hs).
  destruct (forall2_combine_nth _ _ _ _ _ subs (map (asked md) subs) (t_rows t) l (map_length _ _) L2 L1 F i s _ Hs Hn) as (row & a & R1 & R2 & P).
  cbn [fst snd] in P. pose proof (gen_sub_spec _ _ _ _ _ _ _ P) as (_ & _ & V & _ & _ & L).
  assert (ER : row_of t i = row) by (apply nth_error_nth; exact R1).
  split; [|split].
  - unfold off_of. rewrite Et. cbn [t_off]. erewrite nth_error_nth; [reflexivity|]. apply map_nth_error. exact Hs.
  - rewrite ER. exact L.
  - intros x. rewrite ER. specialize (V (answer_deg_ok _ _ Ha)). rewrite V.
    specialize (Hd s (nth_error_In _ _ Hs)). unfold answered. unfold gen_sub in P. destruct (asked md s) as [|d].
    + injection P as <- <-. cbn [sp_poly]. rewrite row_value; [cbn; ring| |].
      * unfold simple. cbn. constructor; [intros []|constructor].
      * intros j [<-|[]]. cbn. lia.
    + destruct (gen_poly k eps (S d) s) as [[p e]|] eqn:G; [|discriminate]. cbn [bind] in P. injection P as _ <-. cbn [sp_poly].
      unfold gen_poly in G. destruct (s_zero s && _); [discriminate|]. unfold answer_ok in Ha. destruct (s_ans s) as [q v|c diff norm].
      * injection G as <- <-. destruct Ha as [A1 A2]. apply row_value; auto. intros j J. apply A2 in J. lia.
      * destruct (vgt (Some eps) diff); [|discriminate]. injection G as <- <-.
        change ((0%nat, c) :: (1%nat, 0) :: enum_map 2 (repeat 0 d)) with (enum_map 0 (c :: repeat 0 (S d))).
        rewrite row_value.
        -- change (enum_map 0 (c :: repeat 0 (S d))) with ((0%nat, c) :: enum_map 1 (repeat 0 (S d))). cbn [mono_sum qpow].
           assert (Z0 : forall n j y, mono_sum (enum_map j (repeat 0 n)) y == 0).
           { clear. induction n; intros; cbn [repeat enum_map mono_sum]; [reflexivity|]. rewrite IHn. ring. }
           rewrite Z0. ring.
        -- apply enum_simple.
        -- intros j J. apply enum_degrees in J. cbn [length] in J. rewrite repeat_length in J. lia.
Qed.

(* when the generation succeeds: each sub-interval is of degree 0, or not a zero
   of the function with a relative target, and approximated by Sollya or nearly
   constant *)
Definition acceptable (k : ekind) (eps : Q) (d : nat) (s : sub) : Prop :=
  d = O \/ (~ (s_zero s = true /\ k = Relative) /\
            match s_ans s with ABuilt _ _ => True | AFailed _ (Some diff) _ => diff < eps | AFailed _ None _ => False end).

Lemma gen_sub_ok : forall k eps n d s, (exists r, gen_sub k eps n d s = Ok r) <-> acceptable k eps d s.
Proof.
  intros k eps n d s. unfold gen_sub, acceptable. destruct d as [|d].
  - split; [auto|]. intros _. eexists. reflexivity.
  - unfold gen_poly. destruct (s_zero s) eqn:Z, k; cbn [andb ekind_eqb bind].
    all: destruct (s_ans s) as [p e|c [diff|] norm]; cbn [vgt bind].
    all: try (split; [intros _; right; split; [intros [? ?]; discriminate|exact I]|intros _; eexists; reflexivity]).
    all: try (split; [intros [r R]; discriminate|intros [R|[R1 R2]]; [discriminate|try contradiction; exfalso; apply R1; auto]]).
    all: destruct (Qle_bool eps diff) eqn:C; cbn [negb bind];
      [apply Qle_bool_iff in C; split; [intros [r R]; discriminate|intros [R|[R1 R2]]; [discriminate|lra]]
      |assert (diff < eps) by (apply Qnot_le_lt; intros K; apply Qle_bool_iff in K; congruence);
       split; [intros _; right; split; [intros [? ?]; discriminate|auto]|intros _; eexists; reflexivity]].
Qed.

Theorem generate_ok_iff : forall k eps md subs,
  (exists r, generate k eps md subs = Ok r) <->
  (md = None -> subs <> []) /\ (forall s, In s subs -> acceptable k eps (asked md s) s).
Proof.
  intros k eps md subs.
  assert (G : forall n degs subs mx, degs = map (asked md) subs -> e_kind mx = k ->
    ((exists r, gen_loop k eps n degs subs mx = Ok r) <-> forall s, In s subs -> acceptable k eps (asked md s) s)).
  { clear subs. intros n. induction degs as [|d degs IH]; intros subs mx E K; destruct subs as [|s subs]; try discriminate.
    - split; [intros _ s []|intros _; eexists; reflexivity].
    - cbn [map] in E. injection E as Ed Es. cbn [gen_loop]. pose proof (gen_sub_ok k eps n d s) as A.
      destruct (gen_sub k eps n d s) as [[row a]|] eqn:Eg; cbn [bind].
      + pose proof (gen_sub_spec _ _ _ _ _ _ _ Eg) as (Ka & _). unfold py_max. rewrite K, Ka, ekind_eqb_refl. cbn [bind].
        set (mx' := if vgt (e_val mx) (e_val (sp_err a)) then mx else sp_err a).
        assert (K' : e_kind mx' = k) by (unfold mx'; destruct (vgt _ _); auto).
        specialize (IH subs mx' Es K'). destruct (gen_loop k eps n degs subs mx') as [[[[o r] m] l]|]; cbn [bind].
        * split; [|intros _; eexists; reflexivity]. intros _ s' [<-|I]; [rewrite <- Ed; apply A; eexists; reflexivity|].
          apply IH; auto. eexists. reflexivity.
        * split; [intros [r R]; discriminate|]. intros H. exfalso. destruct (proj2 IH) as [r R]; [|discriminate].
          intros s' I. apply H. right. exact I.
      + split; [intros [r R]; discriminate|]. intros H. exfalso. destruct (proj2 A) as [r R]; [|discriminate].
        rewrite Ed. apply H. left. reflexivity. }
  unfold generate. destruct md as [d|].
  - cbn [bind]. specialize (G d (map (fun _ => d) subs) subs (mk_err k (Some 0)) eq_refl eq_refl).
    destruct (gen_loop _ _ _ _ _ _) as [[[[o r] m] l]|]; cbn [bind].
    + split; [|intros _; eexists; reflexivity]. intros _. split; [discriminate|]. apply G. eexists. reflexivity.
    + split; [intros [r R]; discriminate|]. intros [_ H]. apply G in H. destruct H. discriminate.
  - destruct subs as [|s0 subs].
    + cbn [map list_max1 bind]. split; [intros [r R]; discriminate|]. intros [H _]. exfalso. apply H; reflexivity.
    + set (ss := s0 :: subs) in *. assert (E : exists n, list_max1 (map s_guess ss) = Ok n) by (eexists; reflexivity).
      destruct E as [n E]. rewrite E. cbn [bind].
      specialize (G n (map s_guess ss) ss (mk_err k (Some 0)) eq_refl eq_refl).
      destruct (gen_loop _ _ _ _ _ _) as [[[[o r] m] l]|]; cbn [bind].
      * split; [|intros _; eexists; reflexivity]. intros _. split; [discriminate|]. apply G. eexists. reflexivity.
      * split; [intros [r R]; discriminate|]. intros [_ H]. apply G in H. destruct H. discriminate.
Qed.

(* with the indexing used to generate, loading what was exported gives the
   tables that were generated *)
Theorem load_generated_tables : forall k eps md subs t g, generate k eps md subs = Ok (t, g) ->
  (forall s, In s subs -> answer_ok (asked md s) s) ->
  exists t', load g (map s_off subs) = Ok t' /\ t_off t' = t_off t /\ t_maxd t' = t_maxd t /\ t_rows t' = t_rows t.
Proof.
  intros k eps md subs t g H Ha. apply generate_inv in H. destruct H as (m & l & Et & Eg & L1 & L2 & Em & Ek & F & Hd & _).
  unfold load. rewrite Eg. cbn [g_maxd g_list]. rewrite load_loop_spec by (rewrite map_length; lia). cbn [bind].
  eexists. split; [reflexivity|]. cbn [t_off t_maxd t_rows]. split; [rewrite Et; reflexivity|]. split; [reflexivity|].
  rewrite map_length. replace (length subs) with (length l) by lia. rewrite firstn_all.
  clear - F Ha L1 L2. revert Ha l L1 L2 F. generalize (t_rows t). induction subs as [|s subs IH]; intros rows Ha l L1 L2 F.
  - destruct rows; [|discriminate]. destruct l; [|discriminate]. reflexivity.
  - destruct rows as [|row rows]; [discriminate|]. destruct l as [|a l]; [discriminate|]. cbn [map combine] in F |- *.
    inversion F; subst. cbn [fst snd] in *. f_equal.
    + apply gen_sub_spec in H2. destruct H2 as (_ & _ & V & _). rewrite V; [reflexivity|].
      apply answer_deg_ok, Ha. left. reflexivity.
    + apply IH; auto. intros. apply Ha. right. auto.
Qed.

(* an indexing with more sub-intervals than the file: IndexError; with fewer,
   the first approximations are used with the offsets of that indexing, whatever
   the sub-intervals they were computed for *)
Theorem load_index_error : forall g offs, (length (g_list g) < length offs)%nat -> load g offs = Raise EIndex.
Proof. intros g offs H. unfold load. rewrite load_loop_index by exact H. reflexivity. Qed.

Theorem load_offsets_from_caller : forall g offs, (length offs <= length (g_list g))%nat ->
  exists t, load g offs = Ok t /\ t_off t = offs /\ length (t_rows t) = length offs /\
    forall i a, nth_error (g_list g) i = Some a -> (i < length offs)%nat ->
      nth_error (t_rows t) i = Some (map (fun m => match clookup (sp_poly a) m with Some c => c | None => 0 end) (seq 0 (S (g_maxd g)))).
Proof.
  intros g offs H. unfold load. rewrite load_loop_spec by exact H. cbn [bind]. eexists. split; [reflexivity|].
  cbn [t_off t_rows]. split; [reflexivity|]. split; [rewrite map_length, firstn_length; lia|].
  intros i a Hi Hl. apply map_nth_error with (f := fun a => map (fun m => dflt (clookup (sp_poly a) m)) (seq 0 (S (g_maxd g)))).
  clear - Hi Hl. revert i Hi Hl. generalize (length offs). generalize (g_list g). induction l; intros n i Hi Hl; [destruct i; discriminate|].
  destruct n; [lia|]. destruct i; cbn in *; auto. apply IHl; auto. lia.
Qed.

(* ------------------------------------------------------------------ *)
(* errors                                                               *)
(* ------------------------------------------------------------------ *)
Definition numbers (l : list aerr) : list Q := flat_map (fun a => match e_val a with Some v => [v] | None => [] end) l.

(* when Sollya computed every error, the error given back (and exported) is the
   largest *)
Theorem generated_error : forall k eps md subs t g, generate k eps md subs = Ok (t, g) ->
  (forall a, In a (g_list g) -> e_val (sp_err a) <> None) ->
  g_err g = t_err t /\ e_kind (t_err t) = k /\
  exists m, e_val (t_err t) = Some m /\ largest 0 (numbers (map sp_err (g_list g))) m.
Proof.
  intros k eps md subs t g H Hn. apply generate_inv in H. destruct H as (m & l & Et & Eg & _ & _ & Em & Ek & _).
  rewrite Eg in Hn |- *. rewrite Et. cbn [g_list g_err t_err] in *. split; [reflexivity|]. split; [exact Ek|]. rewrite Em.
  destruct (fold_newer_largest (map sp_err l) (mk_err k (Some 0)) 0) as (mm & M1 & M2).
  - reflexivity.
  - intros a Ia. apply in_map_iff in Ia. destruct Ia as (b & <- & Ib). auto.
  - exists mm. split; auto.
Qed.

(* a sub-interval whose error is Sollya's error object makes the errors before
   it forgotten: only those after it count *)
Theorem generated_error_after_failure : forall k eps md subs t g l1 a b l2, generate k eps md subs = Ok (t, g) ->
  g_list g = l1 ++ a :: b :: l2 -> e_val (sp_err a) = None -> (forall c, In c (b :: l2) -> e_val (sp_err c) <> None) ->
  exists e m, e_val (sp_err b) = Some e /\ e_val (t_err t) = Some m /\ largest e (numbers (map sp_err l2)) m.
Proof.
  intros k eps md subs t g l1 a b l2 H Hl Hna Hn. apply generate_inv in H. destruct H as (m & l & Et & Eg & _ & _ & Em & Ek & _).
  rewrite Eg in Hl. cbn [g_list] in Hl. rewrite Et. cbn [t_err]. rewrite Em, Hl, map_app. cbn [map]. rewrite fold_left_app. cbn [fold_left].
  rewrite (newer_none _ _ Hna), (newer_from_none _ _ Hna).
  destruct (e_val (sp_err b)) as [e|] eqn:Eb; [|exfalso; apply (Hn b); [left; reflexivity|exact Eb]].
  destruct (fold_newer_largest (map sp_err l2) (sp_err b) e Eb) as (mm & M1 & M2).
  - intros c Ic. apply in_map_iff in Ic. destruct Ic as (c' & <- & Ic). apply Hn. right. exact Ic.
  - exists e, mm. auto.
Qed.

(* and no error is known when it is the last one *)
Theorem generated_error_lost : forall k eps md subs t g l1 a, generate k eps md subs = Ok (t, g) ->
  g_list g = l1 ++ [a] -> e_val (sp_err a) = None -> e_val (t_err t) = None.
Proof.
  intros k eps md subs t g l1 a H Hl Hna. apply generate_inv in H. destruct H as (m & l & Et & Eg & _ & _ & Em & Ek & _).
  rewrite Eg in Hl. cbn [g_list] in Hl. rewrite Et. cbn [t_err]. rewrite Em, Hl, map_app. cbn [map]. rewrite fold_left_app. cbn [fold_left].
  rewrite (newer_none _ _ Hna). exact Hna.
Qed.

(* a coefficient of degree at most max_degree is not in the file *)
Definition lacks (n : nat) (a : spa) : bool :=
  existsb (fun m => match clookup (sp_poly a) m with None => true | _ => false end) (seq 0 (S n)).

(* loading: the error is the largest over the approximations which lack a
   coefficient, starting from zero; the others and the failed ones do not count *)
Theorem loaded_error : forall g offs t, load g offs = Ok t ->
  exists m, e_val (t_err t) = Some m /\
    largest 0 (numbers (map sp_err (filter (lacks (g_maxd g)) (firstn (length offs) (g_list g))))) m.
Proof.
  intros g offs t H. destruct (Nat.le_gt_cases (length offs) (length (g_list g))) as [L|L].
  - unfold load in H. rewrite load_loop_spec in H by exact L. cbn [bind] in H. injection H as <-. cbn [t_err].
    change (fun mx a => if missing a (S (g_maxd g)) then upd (sp_err a) mx else mx)
      with (fun mx a => if lacks (g_maxd g) a then upd (sp_err a) mx else mx).
    destruct (fold_upd_largest (lacks (g_maxd g)) (firstn (length offs) (g_list g)) (mk_err Relative (Some 0)) 0) as (m & M1 & M2).
    + reflexivity.
    + exists m. split; [exact M1|]. unfold numbers. rewrite flat_map_concat_map, map_map, <- flat_map_concat_map. exact M2.
  - rewrite load_index_error in H by exact L. discriminate.
Qed.

(* in particular it is a relative error of zero when every coefficient is in
   the file, whatever the errors of the file *)
Theorem loaded_error_full_zero : forall g offs t, load g offs = Ok t ->
  (forall a, In a (g_list g) -> lacks (g_maxd g) a = false) -> t_err t = Err Relative (Some 0).
Proof.
  intros g offs t H Hf. destruct (Nat.le_gt_cases (length offs) (length (g_list g))) as [L|L].
  - unfold load in H. rewrite load_loop_spec in H by exact L. cbn [bind] in H. injection H as <-. cbn [t_err].
    assert (G : forall l mx, (forall a, In a l -> lacks (g_maxd g) a = false) ->
      fold_left (fun mx a => if missing a (S (g_maxd g)) then upd (sp_err a) mx else mx) l mx = mx).
    { induction l as [|a l IH]; intros mx Hl; cbn [fold_left]; [reflexivity|].
      change (missing a (S (g_maxd g))) with (lacks (g_maxd g) a). rewrite Hl by (left; reflexivity).
      apply IH. intros. apply Hl. right. auto. }
    rewrite G; [reflexivity|]. intros a Ia. apply Hf. rewrite <- (firstn_skipn (length offs)). apply in_or_app. left. exact Ia.
  - rewrite load_index_error in H by exact L. discriminate.
Qed.

(* so the error loaded is not a bound of the errors of the file *)
Theorem loaded_error_bound_refuted : exists g offs t, load g offs = Ok t /\ length offs = length (g_list g) /\
  exists a e, In a (g_list g) /\ e_val (sp_err a) = Some e /\ ~ (exists m, e_val (t_err t) = Some m /\ e <= m).
Proof.
  pose (a := Spa [(0%nat, 1)] [0%nat] (0, 1) (mk_err Absolute (Some (1 # 10)))).
  exists (Gps 0 (mk_err Absolute (Some (1 # 10))) [a]), [0], (Tab [0] 0 [[1]] (mk_err Relative (Some 0))).
  split; [reflexivity|]. split; [reflexivity|]. exists a, (1 # 10). split; [left; reflexivity|]. split; [reflexivity|].
  intros (m & M1 & M2). injection M1 as <-. revert M2. vm_compute. congruence.
Qed.

(* ------------------------------------------------------------------ *)
(* the approximation as a whole, uniform indexing                       *)
(* ------------------------------------------------------------------ *)
(* exact arithmetic: if the polynomial of each sub-interval is within e of the
   function on [-size, size] around its offset, the graph is within
   e + |c_d| size^(d+1) of the function, c_d bounding the last coefficients *)
Theorem pw_uniform_bound : forall f e C t ni lo hi n x,
  nearest_int ni -> (0 < n)%Z -> lo < hi -> lo <= x <= hi ->
  (forall i, (0 <= i < n)%Z -> off_of t (Z.to_nat i) == uni_lo lo hi n i /\ length (row_of t (Z.to_nat i)) = S (t_maxd t) /\
     Qabs (top t (Z.to_nat i)) <= C /\
     forall r, Qabs r <= uni_size lo hi n -> Qabs (poly_at (row_of t (Z.to_nat i)) r - f (uni_lo lo hi n i + r)) <= e) ->
  (forall y z, y == z -> f y == f z) ->
  let i := uni_index ni (fun q => q) lo hi n x in
  Qabs (pw_eval (fun q => q) t (Z.to_nat i) x - f x) <= e + C * qpow (uni_size lo hi n) (S (t_maxd t)).
Proof.
  intros f e C t ni lo hi n x Hni Hn Hlh [Hx1 Hx2] Hi Hf i.
  pose proof (uniform_index_exact ni lo hi n x Hni Hn Hlh Hx1 Hx2) as U. cbn zeta in U. fold i in U.
  destruct U as [Bi U]. unfold uni_offseted in U. destruct U as [U1 U2].
  assert (Es : uni_hi lo hi n i - uni_lo lo hi n i == uni_size lo hi n).
  { unfold uni_hi, uni_lo. rewrite inject_Z_plus. change (inject_Z 1) with 1. ring. }
  rewrite Es in U1, U2. destruct (Hi i Bi) as (O & L & Tc & P).
  rewrite pw_eval_value by exact L. set (r := x - off_of t (Z.to_nat i)).
  assert (Er : r == x - uni_lo lo hi n i) by (unfold r; rewrite O; reflexivity).
  assert (Rr : Qabs r <= uni_size lo hi n) by (apply Qabs_Qle_condition; rewrite Er; split; auto).
  specialize (P r Rr). assert (Ef : f (uni_lo lo hi n i + r) == f x) by (apply Hf; rewrite Er; ring). rewrite Ef in P.
  set (p := poly_at _ r) in *. set (T := top _ _ * _).
  setoid_replace (p + T - f x) with ((p - f x) + T) by ring. eapply Qle_trans; [apply Qabs_triangle|].
  assert (K : Qabs T <= C * qpow (uni_size lo hi n) (S (t_maxd t))).
  { unfold T. rewrite Qabs_Qmult, qpow_abs.
    assert (0 <= qpow (Qabs r) (S (t_maxd t))) by (apply qpow_nonneg, Qabs_nonneg).
    apply Qle_trans with (C * qpow (Qabs r) (S (t_maxd t))); [apply Qmult_le_compat_r; auto|].
    rewrite !(Qmult_comm C). apply Qmult_le_compat_r; [apply qpow_mono; [apply Qabs_nonneg|exact Rr]|].
    eapply Qle_trans; [apply Qabs_nonneg|exact Tc]. }
  lra.
Qed.

(* metalibm_functions/axf/atan-fp32.json.axf, first sub-interval of
   SubUniformIntervalIndexing("[0;1]", 8): degrees 0..7 and the error of the file *)
Definition atan32_row : list Q :=
  [0; 1; - (151016233616548326001982616162422345951199531555176 # 10 ^ 66); - (3333332240581512451171875 # 10 ^ 25);
   48805042310046814479917998141900170594453811645508 # 10 ^ 63; 19996440410614013671875 # 10 ^ 23;
   - (344869033504224820063654988189227879047393798828125 # 10 ^ 62); - (1393214166164398193359375 # 10 ^ 25)].
Definition atan32_error : Q := 51704197389483040666275808357072203923813442023595 # 10 ^ 61.
Definition atan32_tab : tables := Tab [0] 7 [atan32_row] (mk_err Absolute (Some atan32_error)).

(* the point 15/256 selects that sub-interval, and the last coefficient used
   twice costs three times the error the file announces for it *)
Theorem atan32_extra_term_refuted :
  uni_index qrne (fun q => q) 0 1 8 (15 # 256) = 0%Z /\
  3 * atan32_error < Qabs (pw_eval (fun q => q) atan32_tab 0 (15 # 256) - poly_at atan32_row (15 # 256)).
Proof. split; vm_compute; reflexivity. Qed.

(* ------------------------------------------------------------------ *)
(* examples                                                             *)
(* ------------------------------------------------------------------ *)
(* two sub-intervals, the second one of degree 0 *)
Definition ex_subs : list sub :=
  [Sub 0 (0, 1) 2 true 0 None (ABuilt [(1%nat, 3); (2%nat, 5)] (Some (1 # 100)));
   Sub 1 (0, 1) 0 false 7 (Some (1 # 10)) (AFailed 0 None None)].

Example ex_generate : exists t g, generate Absolute (1 # 1000) None ex_subs = Ok (t, g) /\
  t_rows t = [[0; 3; 5]; [7; 0; 0]] /\ e_val (t_err t) = Some (1 # 10) /\
  (forall s, In s ex_subs -> answer_ok (asked None s) s) /\
  (* 3 r + 5 r^2 at r = 2 is 26; the graph gives 26 + 5 * 8 *)
  pw_eval (fun q => q) t 0 2 == 66 /\ (exists t', load g [0; 1] = Ok t' /\ t_rows t' = t_rows t).
Proof.
  do 2 eexists. split; [vm_compute; reflexivity|]. split; [reflexivity|]. split; [reflexivity|]. split; [|split].
  - intros s [<-|[<-|[]]]; cbn; auto. split.
    + unfold simple. cbn. constructor; [intros [E|[]]; discriminate|]. constructor; [intros []|constructor].
    + intros k [<-|[<-|[]]]; lia.
  - vm_compute. reflexivity.
  - eexists. split; vm_compute; reflexivity.
Qed.

(* the same with a relative target: the function has a zero, AssertionError *)
Example ex_generate_relative : generate Relative (1 # 1000) None ex_subs = Raise EAssertion.
Proof. reflexivity. Qed.

(* a failed error between a large one and a small one: the small one is kept *)
Definition ex_err (v : option Q) : sub := Sub 0 (0, 1) 1 false 0 None (ABuilt [(0%nat, 1); (1%nat, 1)] v).
Example ex_failed_error : exists t g, generate Relative (1 # 10) (Some 1%nat)
    [ex_err (Some (1 # 2)); ex_err None; ex_err (Some (1 # 4))] = Ok (t, g) /\ e_val (t_err t) = Some (1 # 4).
Proof. do 2 eexists. split; vm_compute; reflexivity. Qed.
Example ex_failed_last : exists t g, generate Relative (1 # 10) (Some 1%nat)
    [ex_err (Some (1 # 2)); ex_err None] = Ok (t, g) /\ e_val (t_err t) = None.
Proof. do 2 eexists. split; vm_compute; reflexivity. Qed.

(* the identity satisfies the rounding hypothesis with u = 0, as does the
   truncation 15/16 of every value with u = 1/16 *)
Example ex_rounding : rel_rounding 0 (fun q => q) /\ rel_rounding (1 # 16) (fun q => q * (15 # 16)).
Proof.
  split; intros y.
  - setoid_replace (y - y) with 0 by ring. change (Qabs 0) with 0. lra.
  - setoid_replace (y * (15 # 16) - y) with (- (1 # 16) * y) by ring. rewrite Qabs_Qmult. change (Qabs (- (1 # 16))) with (1 # 16). lra.
Qed.
(* the uniform theorem on f(x) = x, one sub-interval of [0, 1] *)
Example ex_uniform : let t := Tab [0] 1 [[0; 1]] (mk_err Absolute (Some 0)) in
  Qabs (pw_eval (fun q => q) t (Z.to_nat (uni_index qrne (fun q => q) 0 1 1 (1 # 2))) (1 # 2) - (1 # 2)) <= 0 + 1 * qpow (uni_size 0 1 1) 2
  /\ pw_eval (fun q => q) t 0 (1 # 2) == 3 # 4.
Proof.
  intros t. split; [|vm_compute; reflexivity].
  apply (pw_uniform_bound (fun y => y) 0 1 t qrne 0 1 1 (1 # 2)); try lra; auto.
  - exact qrne_half.
  - lia.
  - intros i Hi. assert (i = 0)%Z as -> by lia. split; [vm_compute; reflexivity|]. split; [reflexivity|]. split; [vm_compute; congruence|].
    intros r _. cbn [Z.to_nat row_of nth t t_rows poly_at]. setoid_replace (0 + r * (1 + r * 0) - (uni_lo 0 1 1 0 + r)) with 0.
    + change (Qabs 0) with 0. lra.
    + unfold uni_lo. change (inject_Z 0) with 0. ring.
Qed.

Print Assumptions pw_eval_value.
Print Assumptions pw_eval_polynomial_iff.
Print Assumptions pw_eval_rounded.
Print Assumptions generated_tables.
Print Assumptions generate_ok_iff.
Print Assumptions load_generated_tables.
Print Assumptions load_index_error.
Print Assumptions load_offsets_from_caller.
Print Assumptions generated_error.
Print Assumptions generated_error_after_failure.
Print Assumptions generated_error_lost.
Print Assumptions loaded_error.
Print Assumptions loaded_error_full_zero.
Print Assumptions loaded_error_bound_refuted.
Print Assumptions pw_uniform_bound.
Print Assumptions atan32_extra_term_refuted.
