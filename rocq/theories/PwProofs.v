(* Proofs about the piecewise polynomial approximations. *)
From Coq Require Import ZArith QArith Qabs List Bool Arith Lia Lqa Setoid.
From Verif Require Import PwModel PwSpec.
Import ListNotations.
Open Scope Q_scope.

(* ------------------------------------------------------------------ *)
(* polynomials                                                          *)
(* ------------------------------------------------------------------ *)
Lemma qpow_comp : forall n x y, x == y -> qpow x n == qpow y n.
Proof. induction n; intros; cbn [qpow]; [reflexivity|]. rewrite (IHn x y), H by auto. reflexivity. Qed.

Lemma qpow_nonneg : forall n x, 0 <= x -> 0 <= qpow x n.
Proof. induction n; intros; cbn [qpow]; [lra|]. apply Qmult_le_0_compat; auto. Qed.

Lemma qpow_abs : forall n x, Qabs (qpow x n) == qpow (Qabs x) n.
Proof. induction n; intros; cbn [qpow]; [reflexivity|]. rewrite Qabs_Qmult, IHn. reflexivity. Qed.

Lemma qpow_ge1 : forall n u, 0 <= u -> 1 <= qpow (1 + u) n.
Proof.
  induction n; intros; cbn [qpow]; [lra|]. pose proof (IHn u H).
  assert (0 <= u * qpow (1 + u) n) by (apply Qmult_le_0_compat; lra). lra.
Qed.

Lemma qpow_mono : forall n x y, 0 <= x -> x <= y -> qpow x n <= qpow y n.
Proof.
  induction n; intros; cbn [qpow]; [lra|]. pose proof (IHn x y H H0). pose proof (qpow_nonneg n x H).
  apply Qle_trans with (y * qpow x n); [apply Qmult_le_compat_r; auto|].
  rewrite (Qmult_comm y), (Qmult_comm y). apply Qmult_le_compat_r; auto. lra.
Qed.

Lemma qpow_zero : forall n x, qpow x n == 0 -> x == 0.
Proof.
  induction n; intros x H; cbn [qpow] in H; [lra|].
  destruct (Qmult_integral _ _ H); auto.
Qed.

Lemma poly_at_app : forall l c x, poly_at (l ++ [c]) x == poly_at l x + c * qpow x (length l).
Proof. induction l; intros; cbn [poly_at app length qpow]; [ring|]. rewrite IHl. ring. Qed.

Lemma poly_at_comp : forall l x y, x == y -> poly_at l x == poly_at l y.
Proof. induction l; intros; cbn [poly_at]; [reflexivity|]. rewrite (IHl x y), H by auto. reflexivity. Qed.

Lemma map_nth_seq : forall (l : list Q), map (fun m => nth m l 0) (seq 0 (length l)) = l.
Proof.
  intros l. assert (G : forall (l p : list Q), map (fun m => nth m (p ++ l) 0) (seq (length p) (length l)) = l).
  { clear l. induction l as [|a l IH]; intros p; cbn [map length seq]; [reflexivity|]. f_equal.
    - rewrite app_nth2, Nat.sub_diag by lia. reflexivity.
    - specialize (IH (p ++ [a])). rewrite <- app_assoc in IH. cbn [app] in IH. rewrite app_length in IH. cbn [length] in IH.
      rewrite Nat.add_1_r in IH. exact IH. }
  exact (G l []).
Qed.

(* ------------------------------------------------------------------ *)
(* evaluation                                                           *)
(* ------------------------------------------------------------------ *)
Definition head (row : list Q) (n : nat) : list Q := map (fun m => nth m row 0) (seq 0 n).

Lemma head_S : forall row n, head row (S n) = head row n ++ [nth n row 0].
Proof. intros. unfold head. rewrite seq_S, map_app. reflexivity. Qed.
Lemma head_length : forall row n, length (head row n) = n.
Proof. intros. unfold head. rewrite map_length, seq_length. reflexivity. Qed.
Lemma rev_seq_S : forall n, rev (seq 0 (S n)) = n :: rev (seq 0 n).
Proof. intros. rewrite seq_S, rev_app_distr. reflexivity. Qed.

Lemma horner_exact : forall n row r acc,
  pw_horner (fun q => q) row r (rev (seq 0 n)) acc == acc * qpow r n + poly_at (head row n) r.
Proof.
  induction n; intros row r acc.
  - cbn. ring.
  - rewrite rev_seq_S. cbn [pw_horner]. rewrite IHn, head_S, poly_at_app, head_length. cbn [qpow]. ring.
Qed.

Lemma horner_rounded : forall rnd u, 0 <= u -> rel_rounding u rnd -> forall n row r acc,
  Qabs (pw_horner rnd row r (rev (seq 0 n)) acc - pw_horner (fun q => q) row r (rev (seq 0 n)) acc)
  <= (qpow (1 + u) n - 1) * (Qabs acc * qpow (Qabs r) n + abs_poly_at (head row n) r).
Proof.
  intros rnd u Hu Hr. induction n; intros row r acc.
  - cbn [seq rev pw_horner qpow]. setoid_replace (acc - acc) with 0 by ring. change (Qabs 0) with 0. lra.
  - rewrite rev_seq_S. cbn [pw_horner]. set (c := nth n row 0). set (y := r * acc + c). set (a1 := rnd y).
    specialize (IHn row r a1).
    pose proof (Hr y) as E. fold a1 in E.
    assert (Ey : Qabs y <= Qabs r * Qabs acc + Qabs c).
    { unfold y. eapply Qle_trans; [apply Qabs_triangle|]. rewrite Qabs_Qmult. lra. }
    assert (E1 : Qabs a1 <= (1 + u) * Qabs y).
    { setoid_replace a1 with ((a1 - y) + y) by ring. eapply Qle_trans; [apply Qabs_triangle|]. lra. }
    set (R := qpow (Qabs r) n) in *. set (A := abs_poly_at (head row n) r) in *. set (G := qpow (1 + u) n) in *.
    assert (HR : 0 <= R) by (apply qpow_nonneg, Qabs_nonneg).
    assert (HG : 1 <= G) by (apply qpow_ge1; auto).
    assert (HA : abs_poly_at (head row (S n)) r == A + Qabs c * R).
    { unfold abs_poly_at. rewrite head_S, map_app. cbn [map]. rewrite poly_at_app, map_length, head_length. reflexivity. }
    rewrite HA. cbn [qpow]. fold R G.
    assert (D : pw_horner (fun q => q) row r (rev (seq 0 n)) a1 - pw_horner (fun q => q) row r (rev (seq 0 n)) y == (a1 - y) * qpow r n).
    { rewrite !horner_exact. ring. }
    set (h1 := pw_horner rnd row r (rev (seq 0 n)) a1) in *.
    set (h2 := pw_horner (fun q => q) row r (rev (seq 0 n)) a1) in *.
    set (h3 := pw_horner (fun q => q) row r (rev (seq 0 n)) y) in *.
    setoid_replace (h1 - h3) with ((h1 - h2) + (h2 - h3)) by ring.
    eapply Qle_trans; [apply Qabs_triangle|]. rewrite D, Qabs_Qmult, qpow_abs. fold R.
    assert (S1 : Qabs (a1 - y) * R <= u * Qabs y * R) by (apply Qmult_le_compat_r; auto).
    assert (S2 : (G - 1) * (Qabs a1 * R + A) <= (G - 1) * ((1 + u) * Qabs y * R + A)).
    { rewrite !(Qmult_comm (G - 1)). apply Qmult_le_compat_r; [|lra].
      assert (Qabs a1 * R <= (1 + u) * Qabs y * R) by (apply Qmult_le_compat_r; auto). lra. }
    assert (HA0 : 0 <= A).
    { unfold A, abs_poly_at. generalize (head row n). intros l. induction l; cbn [map poly_at]; [lra|].
      pose proof (Qabs_nonneg a). assert (0 <= Qabs r * poly_at (map Qabs l) (Qabs r)) by (apply Qmult_le_0_compat; auto; apply Qabs_nonneg). lra. }
    assert (S3 : ((1 + u) * G - 1) * (Qabs y * R) <= ((1 + u) * G - 1) * ((Qabs r * Qabs acc + Qabs c) * R)).
    { rewrite !(Qmult_comm ((1 + u) * G - 1)). apply Qmult_le_compat_r; [apply Qmult_le_compat_r; auto|].
      assert (0 <= u * G) by (apply Qmult_le_0_compat; lra). lra. }
    assert (S4 : (G - 1) * A <= ((1 + u) * G - 1) * A).
    { apply Qmult_le_compat_r; auto. assert (0 <= u * G) by (apply Qmult_le_0_compat; lra). lra. }
    setoid_replace (((1 + u) * G - 1) * (Qabs acc * (Qabs r * R) + (A + Qabs c * R)))
      with (((1 + u) * G - 1) * ((Qabs r * Qabs acc + Qabs c) * R) + ((1 + u) * G - 1) * A) by ring.
    setoid_replace ((G - 1) * ((1 + u) * Qabs y * R + A)) with (((1 + u) * G - 1) * (Qabs y * R) - u * Qabs y * R + (G - 1) * A) in S2 by ring.
    lra.
Qed.

(* ------------------------------------------------------------------ *)
(* rows and polynomials                                                 *)
(* ------------------------------------------------------------------ *)
Definition dflt (o : option Q) : Q := match o with Some c => c | None => 0 end.

Lemma clookup_none : forall p k, ~ In k (degrees p) -> clookup p k = None.
Proof.
  induction p as [|[i c] p IH]; intros k H; cbn [clookup]; [reflexivity|].
  cbn [degrees map fst] in H. destruct (Nat.eqb_spec i k) as [->|N]; [exfalso; apply H; left; reflexivity|].
  apply IH. intros K. apply H. right. exact K.
Qed.

Lemma sum_add : forall n a f g x, poly_at (map (fun m => f m + g m) (seq a n)) x
  == poly_at (map f (seq a n)) x + poly_at (map g (seq a n)) x.
Proof. induction n; intros; cbn [seq map poly_at]; [ring|]. rewrite IHn. ring. Qed.

Lemma sum_ext : forall n a f g x, (forall m, (a <= m < a + n)%nat -> f m == g m) ->
  poly_at (map f (seq a n)) x == poly_at (map g (seq a n)) x.
Proof.
  induction n; intros; cbn [seq map poly_at]; [reflexivity|]. rewrite (H a) by lia.
  rewrite (IHn (S a) f g x); [reflexivity|]. intros m Hm. apply H. lia.
Qed.

Lemma sum_zero : forall n a x, poly_at (map (fun _ : nat => 0) (seq a n)) x == 0.
Proof. induction n; intros; cbn [seq map poly_at]; [reflexivity|]. rewrite IHn. ring. Qed.

Lemma sum_single : forall n a k c x, (a <= k < a + n)%nat ->
  poly_at (map (fun m => if Nat.eqb k m then c else 0) (seq a n)) x == c * qpow x (k - a).
Proof.
  induction n; intros a k c x H; [lia|]. cbn [seq map poly_at]. destruct (Nat.eqb_spec k a) as [->|N].
  - rewrite Nat.sub_diag. cbn [qpow]. rewrite (sum_ext n (S a) _ (fun _ => 0)), sum_zero; [ring|].
    intros m Hm. destruct (Nat.eqb_spec a m); [lia|reflexivity].
  - rewrite IHn by lia. replace (k - a)%nat with (S (k - S a)) by lia. cbn [qpow]. ring.
Qed.

Lemma row_value : forall p n x, simple p -> (forall k, In k (degrees p) -> (k < n)%nat) ->
  poly_at (map (fun m => dflt (clookup p m)) (seq 0 n)) x == mono_sum p x.
Proof.
  induction p as [|[k c] p IH]; intros n x Hs Hk; cbn [mono_sum].
  - rewrite (sum_ext n 0 _ (fun _ => 0)) by reflexivity. apply sum_zero.
  - unfold simple in Hs. cbn [degrees map fst] in Hs. inversion Hs as [|? ? N1 N2]; subst.
    rewrite <- (IH n x) by (auto; intros; apply Hk; right; auto).
    rewrite (sum_ext n 0 _ (fun m => (if Nat.eqb k m then c else 0) + dflt (clookup p m))).
    + rewrite sum_add, sum_single by (specialize (Hk k); cbn in Hk; lia). rewrite Nat.sub_0_r. reflexivity.
    + intros m _. cbn [clookup]. destruct (Nat.eqb_spec k m) as [->|N]; [|cbn [dflt]; ring].
      rewrite clookup_none by exact N1. cbn [dflt]. ring.
Qed.

Lemma gen_row_dflt : forall p d n, (forall k, In k (degrees p) -> (k <= d)%nat) ->
  gen_row n d p = map (fun m => dflt (clookup p m)) (seq 0 (S n)).
Proof.
  intros p d n H. unfold gen_row. apply map_ext. intros m. destruct (Nat.leb_spec m d); [reflexivity|].
  rewrite clookup_none; [reflexivity|]. intros K. apply H in K. lia.
Qed.

Lemma enum_degrees : forall l i k, In k (degrees (enum_map i l)) <-> (i <= k < i + length l)%nat.
Proof.
  induction l; intros i k; cbn [enum_map degrees map fst length]; [split; [contradiction|lia]|].
  split.
  - intros [<-|H]; [lia|]. apply IHl in H. lia.
  - intros H. destruct (Nat.eq_dec i k) as [->|N]; [left; reflexivity|right]. apply IHl. lia.
Qed.

Lemma enum_simple : forall l i, simple (enum_map i l).
Proof.
  induction l; intros i; unfold simple; cbn [enum_map degrees map fst]; constructor; auto.
  - intros H. apply (enum_degrees l (S i) i) in H. lia.
  - apply IHl.
Qed.

(* ------------------------------------------------------------------ *)
(* loading                                                              *)
(* ------------------------------------------------------------------ *)
Definition missing (a : spa) (n : nat) : bool := existsb (fun m => match clookup (sp_poly a) m with None => true | _ => false end) (seq 0 n).
Definition upd (a mx : aerr) : aerr := if vgt (e_val a) (e_val mx) then a else mx.

Lemma vgt_irrefl : forall v, vgt v v = false.
Proof. intros [q|]; [|reflexivity]. cbn. rewrite (proj2 (Qle_bool_iff q q) (Qle_refl q)). reflexivity. Qed.

Lemma upd_idem : forall a mx, upd a (upd a mx) = upd a mx.
Proof. intros. unfold upd. destruct (vgt (e_val a) (e_val mx)) eqn:E; [rewrite vgt_irrefl; reflexivity|]. rewrite E. reflexivity. Qed.

Lemma load_row_value : forall a ms mx, fst (load_row a ms mx) = map (fun m => dflt (clookup (sp_poly a) m)) ms.
Proof.
  induction ms as [|m ms IH]; intros mx; cbn [load_row map]; [reflexivity|].
  destruct (clookup (sp_poly a) m); cbn [dflt].
  - specialize (IH mx). destruct (load_row a ms mx). cbn in *. f_equal. exact IH.
  - specialize (IH (if vgt (e_val (sp_err a)) (e_val mx) then sp_err a else mx)). destruct (load_row a ms _). cbn in *. f_equal. exact IH.
Qed.

Lemma load_row_err : forall a ms mx, snd (load_row a ms mx) =
  if existsb (fun m => match clookup (sp_poly a) m with None => true | _ => false end) ms then upd (sp_err a) mx else mx.
Proof.
  induction ms as [|m ms IH]; intros mx; cbn [load_row existsb]; [reflexivity|].
  destruct (clookup (sp_poly a) m); cbn [orb].
  - specialize (IH mx). destruct (load_row a ms mx). cbn in *. exact IH.
  - fold (upd (sp_err a) mx). specialize (IH (upd (sp_err a) mx)). destruct (load_row a ms _). cbn in *. rewrite IH.
    rewrite upd_idem. destruct (existsb _ ms); reflexivity.
Qed.

Lemma load_loop_spec : forall n offs l mx, (length offs <= length l)%nat ->
  load_loop n offs l mx = Ok (map (fun a => map (fun m => dflt (clookup (sp_poly a) m)) (seq 0 (S n))) (firstn (length offs) l),
                              fold_left (fun mx a => if missing a (S n) then upd (sp_err a) mx else mx) (firstn (length offs) l) mx).
Proof.
  intros n. induction offs as [|o offs IH]; intros l mx H; cbn [load_loop length firstn]; [reflexivity|].
  destruct l as [|a l]; [cbn in H; lia|]. cbn [length] in H.
  pose proof (load_row_value a (seq 0 (S n)) mx) as V. pose proof (load_row_err a (seq 0 (S n)) mx) as E.
  destruct (load_row a (seq 0 (S n)) mx) as [row mx']. cbn [fst snd] in V, E. rewrite V.
  rewrite IH by lia. cbn [bind map fold_left]. unfold missing at 2. rewrite E. reflexivity.
Qed.

Lemma load_loop_index : forall n offs l mx, (length l < length offs)%nat -> load_loop n offs l mx = Raise EIndex.
Proof.
  intros n. induction offs as [|o offs IH]; intros l mx H; [cbn in H; lia|]. destruct l as [|a l]; cbn [load_loop]; [reflexivity|].
  destruct (load_row a (seq 0 (S n)) mx) as [row mx']. cbn [length] in H. rewrite IH by lia. reflexivity.
Qed.

(* ------------------------------------------------------------------ *)
(* generation                                                           *)
(* ------------------------------------------------------------------ *)
(* polynomials given by Sollya have a degree at most the one asked *)
Definition deg_ok (s : sub) (d : nat) : Prop :=
  match s_ans s with ABuilt p _ => forall k, In k (degrees p) -> (k <= d)%nat | AFailed _ _ _ => True end.

Lemma mk_err_kind : forall k v, e_kind (mk_err k v) = k.
Proof. reflexivity. Qed.

Lemma ekind_eqb_refl : forall k, ekind_eqb k k = true.
Proof. destruct k; reflexivity. Qed.

Lemma gen_poly_spec : forall k eps d s p e, gen_poly k eps d s = Ok (p, e) ->
  e_kind e = k /\ (deg_ok s d -> forall i, In i (degrees p) -> (i <= d)%nat) /\
  (forall q v, s_ans s = ABuilt q v -> p = q /\ e = mk_err k v).
Proof.
  intros k eps d s p e H. unfold gen_poly in H.
  destruct (s_zero s && ekind_eqb k Relative) eqn:Z; [discriminate|].
  unfold deg_ok. destruct (s_ans s) as [q v|c diff norm].
  - injection H as <- <-. assert (K : (if s_zero s then Absolute else k) = k).
    { destruct (s_zero s), k; try reflexivity. discriminate. }
    rewrite K. split; [reflexivity|]. split; [auto|]. intros q' v' E. injection E as <- <-. auto.
  - destruct (vgt (Some eps) diff); [|discriminate]. injection H as <- <-. split; [reflexivity|]. split; [|discriminate].
    intros _ i Hi. change ((0%nat, c) :: enum_map 1 (repeat 0 d)) with (enum_map 0 (c :: repeat 0 d)) in Hi.
    apply enum_degrees in Hi. cbn [length] in Hi. rewrite repeat_length in Hi. lia.
Qed.

Lemma gen_sub_spec : forall k eps n d s row a, gen_sub k eps n d s = Ok (row, a) ->
  e_kind (sp_err a) = k /\ sp_itv a = s_itv s /\
  (deg_ok s d -> row = map (fun m => dflt (clookup (sp_poly a) m)) (seq 0 (S n))) /\
  (deg_ok s d -> forall i, In i (degrees (sp_poly a)) -> (i <= d)%nat) /\
  sp_degs a = seq 0 (S d) /\ length row = S n.
Proof.
  intros k eps n d s row a H. unfold gen_sub in H. destruct d as [|d].
  - injection H as <- <-. split; [reflexivity|]. split; [reflexivity|]. split; [|split; [|split; [reflexivity|]]].
    + intros _. cbn [seq map sp_poly clookup Nat.eqb dflt]. f_equal.
      rewrite <- seq_shift, map_map. cbn [clookup Nat.eqb dflt]. clear. generalize 0%nat.
      induction n; intros i; cbn [repeat seq map]; [reflexivity|]. f_equal. apply IHn.
    + intros _ i [<-|[]]. cbn; lia.
    + cbn [length]. rewrite repeat_length. reflexivity.
  - destruct (gen_poly k eps (S d) s) as [[p e]|] eqn:E; [|discriminate]. cbn [bind] in H. injection H as <- <-.
    apply gen_poly_spec in E. destruct E as (K & D & _). cbn [sp_err sp_itv sp_poly sp_degs].
    split; [exact K|]. split; [reflexivity|]. split; [|split; [exact D|split; [reflexivity|]]].
    + intros O. apply gen_row_dflt. apply D. exact O.
    + unfold gen_row. rewrite map_length, seq_length. reflexivity.
Qed.

Definition newer (mx a : aerr) : aerr := if vgt (e_val mx) (e_val a) then mx else a.

Lemma gen_loop_spec : forall k eps n degs subs mx offs rows m l, length degs = length subs -> e_kind mx = k ->
  gen_loop k eps n degs subs mx = Ok (offs, rows, m, l) ->
  offs = map s_off subs /\ length l = length subs /\ length rows = length subs /\
  m = fold_left newer (map sp_err l) mx /\ e_kind m = k /\
  Forall2 (fun sd ra => gen_sub k eps n (snd sd) (fst sd) = Ok ra) (combine subs degs) (combine rows l).
Proof.
  intros k eps n degs subs. revert degs. induction subs as [|s subs IH]; intros degs mx offs rows m l L K H.
  - destruct degs; [|discriminate]. cbn in H. injection H as <- <- <- <-. cbn. repeat (split; [auto|]). constructor.
  - destruct degs as [|d degs]; [discriminate|]. cbn [gen_loop] in H.
    destruct (gen_sub k eps n d s) as [[row a]|] eqn:E; [|discriminate]. cbn [bind] in H.
    pose proof (gen_sub_spec _ _ _ _ _ _ _ E) as (Ka & _).
    unfold py_max in H. rewrite K, Ka, ekind_eqb_refl in H. cbn [bind] in H.
    destruct (gen_loop k eps n degs subs _) as [[[[offs' rows'] m'] l']|] eqn:G; [|discriminate]. cbn [bind] in H.
    injection H as <- <- <- <-.
    change (if vgt (e_val mx) (e_val (sp_err a)) then mx else sp_err a) with (newer mx (sp_err a)) in G.
    apply IH in G; [|cbn in L; lia|unfold newer; destruct (vgt _ _); auto].
    destruct G as (G1 & G2 & G3 & G4 & G5 & G6). cbn [map length fold_left combine].
    split; [f_equal; auto|]. split; [auto|]. split; [auto|]. split; [auto|]. split; [auto|]. constructor; auto.
Qed.

(* ------------------------------------------------------------------ *)
(* maximum of the errors                                                *)
(* ------------------------------------------------------------------ *)
Lemma fold_newer_largest : forall l mx s, e_val mx = Some s -> (forall a, In a l -> e_val a <> None) ->
  exists m, e_val (fold_left newer l mx) = Some m /\
    largest s (flat_map (fun a => match e_val a with Some v => [v] | None => [] end) l) m.
Proof.
  induction l as [|a l IH]; intros mx s Hs Ha; cbn [fold_left flat_map].
  - exists s. split; auto. split; [left; reflexivity|]. split; [lra|]. intros e [].
  - destruct (e_val a) as [v|] eqn:Ev; [|exfalso; apply (Ha a); [left; reflexivity|exact Ev]].
    assert (E : e_val (newer mx a) = Some (if negb (Qle_bool s v) then s else v)).
    { unfold newer. rewrite Hs, Ev. cbn [vgt]. destruct (negb (Qle_bool s v)); auto. }
    destruct (IH (newer mx a) _ E ltac:(intros b Hb; apply Ha; right; exact Hb)) as (m & M1 & M2 & M3 & M4).
    exists m. split; [exact M1|]. cbn [app].
    destruct (Qle_bool s v) eqn:C; cbn [negb] in M2, M3.
    + apply Qle_bool_iff in C. split; [|split; [lra|]].
      * right. destruct M2 as [M2|(e & I & Q)]; [exists v; split; [left; reflexivity|exact M2]|exists e; split; [right; exact I|exact Q]].
      * intros e [<-|I]; [lra|auto].
    + assert (v < s) by (apply Qnot_le_lt; intros K; apply Qle_bool_iff in K; congruence).
      split; [|split; [lra|]].
      * destruct M2 as [M2|(e & I & Q)]; [left; exact M2|right; exists e; split; [right; exact I|exact Q]].
      * intros e [<-|I]; [lra|auto].
Qed.

Lemma newer_none : forall mx a, e_val a = None -> newer mx a = a.
Proof. intros mx a H. unfold newer. rewrite H. destruct (e_val mx); reflexivity. Qed.

Lemma newer_from_none : forall mx a, e_val mx = None -> newer mx a = a.
Proof. intros mx a H. unfold newer. rewrite H. reflexivity. Qed.

Lemma fold_upd_largest : forall (f : spa -> bool) l mx s, e_val mx = Some s ->
  exists m, e_val (fold_left (fun mx a => if f a then upd (sp_err a) mx else mx) l mx) = Some m /\
    largest s (flat_map (fun a => match e_val (sp_err a) with Some v => [v] | None => [] end) (filter f l)) m.
Proof.
  intros f. induction l as [|a l IH]; intros mx s Hs; cbn [fold_left filter].
  - exists s. split; auto. split; [left; reflexivity|]. split; [lra|]. intros e [].
  - destruct (f a); [|apply IH; exact Hs]. cbn [flat_map].
    destruct (e_val (sp_err a)) as [v|] eqn:Ev.
    + assert (E : e_val (upd (sp_err a) mx) = Some (if negb (Qle_bool v s) then v else s)).
      { unfold upd. rewrite Hs, Ev. cbn [vgt]. destruct (negb (Qle_bool v s)); auto. }
      destruct (IH (upd (sp_err a) mx) _ E) as (m & M1 & M2 & M3 & M4). exists m. split; [exact M1|]. cbn [app].
      destruct (Qle_bool v s) eqn:C; cbn [negb] in M2, M3.
      * apply Qle_bool_iff in C. split; [|split; [lra|]].
        -- destruct M2 as [M2|(e & I & Q)]; [left; exact M2|right; exists e; split; [right; exact I|exact Q]].
        -- intros e [<-|I]; [lra|auto].
      * assert (s < v) by (apply Qnot_le_lt; intros K; apply Qle_bool_iff in K; congruence).
        split; [|split; [lra|]].
        -- right. destruct M2 as [M2|(e & I & Q)]; [exists v; split; [left; reflexivity|exact M2]|exists e; split; [right; exact I|exact Q]].
        -- intros e [<-|I]; [lra|auto].
    + cbn [app]. assert (E : upd (sp_err a) mx = mx) by (unfold upd; rewrite Ev; reflexivity). rewrite E. apply IH. exact Hs.
Qed.
