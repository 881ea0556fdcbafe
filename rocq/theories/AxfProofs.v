From Coq Require Import ZArith Lia List Bool String Ascii DecimalString Decimal DecimalZ Permutation Sorted.
From Verif Require Import AxfModel AxfSpec.
Import ListNotations.
Open Scope string_scope.

(* ------------------------------------------------------------------ *)
(* decimal integers                                                     *)
(* ------------------------------------------------------------------ *)
Fixpoint all_digits (s : string) : bool := match s with "" => true | String c t => is_digit c && all_digits t end.

Lemma to_int_nz : forall z, Z.to_int z <> Pos Nil /\ Z.to_int z <> Neg Nil.
Proof.
  intros [|p|p]; cbn [Z.to_int]; (split; [intros E|intros E]); try discriminate; injection E as E.
  - exact (DecimalPos.Unsigned.to_uint_nonnil p E).
  - exact (DecimalPos.Unsigned.to_uint_nonnil p E).
Qed.

Lemma undec_dec : forall z, undec (dec z) = Some z.
Proof.
  intro z. unfold undec, dec. destruct (to_int_nz z) as [A B]. rewrite NilZero.isi by assumption.
  cbn [option_map]. now rewrite DecimalZ.of_to.
Qed.

Lemma uint_digits : forall d, all_digits (NilEmpty.string_of_uint d) = true.
Proof. induction d; cbn [NilEmpty.string_of_uint all_digits]; try reflexivity; exact IHd. Qed.
Lemma uint_digits_cons : forall d, exists c t, NilZero.string_of_uint d = String c t /\ all_digits (String c t) = true.
Proof.
  intro d. destruct d; [exists "0"%char, ""; split; reflexivity|..];
    (eexists; eexists; split; [reflexivity|exact (uint_digits d)]).
Qed.
Lemma dec_nonneg : forall z, (0 <= z)%Z -> exists c t, dec z = String c t /\ all_digits (String c t) = true.
Proof.
  intros [|p|p] H; [| |lia]; unfold dec; cbn [Z.to_int NilZero.string_of_int]; apply uint_digits_cons.
Qed.
Lemma dec_neg : forall z, (z < 0)%Z -> dec z = String "-" (dec (- z)).
Proof. intros [|p|p] H; try lia. reflexivity. Qed.

Lemma digits_lack : forall c s, is_digit c = false -> all_digits s = true -> lacks c s.
Proof.
  intros c; induction s as [|a t IH]; intros N D; [exact I|].
  cbn [all_digits] in D. apply andb_prop in D. destruct D as [D1 D2]. split; [|apply IH; assumption].
  intros ->. congruence.
Qed.
Lemma dec_lacks : forall c z, is_digit c = false -> c <> "-"%char -> lacks c (dec z).
Proof.
  intros c z N M. destruct (Z.ltb_spec z 0) as [L|L].
  - rewrite dec_neg by exact L. split; [congruence|].
    destruct (dec_nonneg (- z)) as [a [t [E D]]]; [lia|]. rewrite E. now apply digits_lack.
  - destruct (dec_nonneg z) as [a [t [E D]]]; [lia|]. rewrite E. now apply digits_lack.
Qed.

Definition no_digit_first (s : string) : Prop := match s with String c _ => is_digit c = false | "" => True end.
Lemma digits_of_app : forall d r, all_digits d = true -> no_digit_first r -> digits_of (d ++ r) = (d, r).
Proof.
  induction d as [|a t IH]; intros r D N.
  - cbn [append]. destruct r as [|c u]; [reflexivity|]. cbn [no_digit_first] in N. cbn [digits_of]. now rewrite N.
  - cbn [all_digits] in D. apply andb_prop in D. destruct D as [D1 D2]. cbn [append digits_of]. now rewrite D1, (IH r D2 N).
Qed.
Lemma undec_digits_dec : forall z c t, dec z = String c t -> undec (String c t) = Some z.
Proof. intros z c t <-. apply undec_dec. Qed.

Lemma signed_digits_minus : forall u, signed_digits (String "-" u) =
  let '(d, r) := digits_of u in
  match d with "" => None | _ => match undec d with Some z => Some ((- z)%Z, r) | None => None end end.
Proof. intro u. reflexivity. Qed.
Lemma signed_digits_plain : forall c u, is_digit c = true -> signed_digits (String c u) =
  let '(d, r) := digits_of (String c u) in
  match d with "" => None | _ => match undec d with Some z => Some (z, r) | None => None end end.
Proof.
  intros c u C. unfold signed_digits. destruct c as [[] [] [] [] [] [] [] []]; try discriminate C; reflexivity.
Qed.
Lemma signed_digits_dec : forall z r, no_digit_first r -> signed_digits (dec z ++ r) = Some (z, r).
Proof.
  intros z r N. destruct (Z.ltb_spec z 0) as [L|L].
  - rewrite dec_neg by exact L. destruct (dec_nonneg (- z)) as [c [t [E D]]]; [lia|].
    rewrite E. change ((String "-" (String c t) ++ r)) with (String "-" (String c t ++ r)). rewrite signed_digits_minus.
    rewrite (digits_of_app _ r D N), (undec_digits_dec _ _ _ E). f_equal. f_equal. lia.
  - destruct (dec_nonneg z) as [c [t [E D]]]; [lia|]. rewrite E.
    change (String c t ++ r) with (String c (t ++ r)). rewrite signed_digits_plain by (cbn [all_digits] in D; apply andb_prop in D; apply D).
    change (String c (t ++ r)) with (String c t ++ r). rewrite (digits_of_app _ r D N), (undec_digits_dec _ _ _ E). reflexivity.
Qed.

(* ------------------------------------------------------------------ *)
(* texts                                                                *)
(* ------------------------------------------------------------------ *)
Lemma strip_app : forall p s, strip p (p ++ s) = Some s.
Proof. induction p as [|a t IH]; intro s; [reflexivity|]. cbn [append strip]. now rewrite Ascii.eqb_refl, IH. Qed.
Lemma until_app : forall c s r, lacks c s -> until c (s ++ String c r) = Some (s, r).
Proof.
  intros c; induction s as [|a t IH]; intros r L; cbn [append until].
  - now rewrite Ascii.eqb_refl.
  - destruct L as [L1 L2]. rewrite (proj2 (Ascii.eqb_neq a c) L1), (IH r L2). reflexivity.
Qed.
Lemma app_assoc_s : forall a b c : string, ((a ++ b) ++ c) = a ++ b ++ c.
Proof. induction a as [|x t IH]; intros; [reflexivity|]. cbn [append]. now rewrite IH. Qed.
Lemma app_nil_s : forall a : string, a ++ "" = a.
Proof. induction a as [|x t IH]; [reflexivity|]. cbn [append]. now rewrite IH. Qed.
Lemma length_app_s : forall a b, String.length (a ++ b) = (String.length a + String.length b)%nat.
Proof. induction a as [|x t IH]; intros; [reflexivity|]. cbn [append String.length]. rewrite IH. lia. Qed.

Lemma int_then_dec : forall z r, int_then (dec z ++ ", " ++ r) = Some (z, r).
Proof.
  intros z r. unfold int_then. change (", " ++ r) with (String comma (" " ++ r)).
  rewrite until_app by (apply dec_lacks; [reflexivity|discriminate]).
  change (" " ++ r) with (String " "%char r). cbv beta iota. now rewrite undec_dec.
Qed.

(* ------------------------------------------------------------------ *)
(* json                                                                 *)
(* ------------------------------------------------------------------ *)
Lemma json_list : forall l, json_io (PList l) = (do r <- mapM json_io l; Ok (PList r)).
Proof.
  intro l. cbn [json_io]. f_equal. induction l as [|a t IH]; [reflexivity|]. cbn [mapM]. now rewrite IH.
Qed.
Definition json_entries (l : list (key * py)) : res (list (key * py)) :=
  mapM (fun e => do b <- json_io (snd e); Ok (fst e, b)) l.
Lemma json_dict : forall l, json_io (PDict l) =
  (do r <- json_entries l; if comparable r then Ok (PDict (map (fun e => (key_str (fst e), snd e)) (isort r))) else Raise EType).
Proof.
  intro l. cbn [json_io]. f_equal. unfold json_entries.
  induction l as [|[k a] t IH]; [reflexivity|]. cbn [mapM fst snd]. rewrite IH. destruct (json_io a); reflexivity.
Qed.
Lemma json_atom : forall v, atom v -> json_io v = Ok v.
Proof. intros [| | | | |] A; try reflexivity; destruct A. Qed.
Lemma json_ints : forall l, json_io (PList (map PInt l)) = Ok (PList (map PInt l)).
Proof.
  intro l. rewrite json_list. assert (E : mapM json_io (map PInt l) = Ok (map PInt l)).
  { induction l as [|a t IH]; [reflexivity|]. cbn [map mapM json_io bind]. now rewrite IH. }
  now rewrite E.
Qed.
Lemma json_strs : forall l, json_io (PList (map PStr l)) = Ok (PList (map PStr l)).
Proof.
  intro l. rewrite json_list. assert (E : mapM json_io (map PStr l) = Ok (map PStr l)).
  { induction l as [|a t IH]; [reflexivity|]. cbn [map mapM json_io bind]. now rewrite IH. }
  now rewrite E.
Qed.

(* polynomials *)
Fixpoint zins {A} (e : Z * A) (l : list (Z * A)) : list (Z * A) :=
  match l with [] => [e] | x :: t => if Z.leb (fst e) (fst x) then e :: x :: t else x :: zins e t end.
Fixpoint zsort {A} (l : list (Z * A)) : list (Z * A) := match l with [] => [] | e :: t => zins e (zsort t) end.

Lemma zins_perm : forall A (e : Z * A) l, Permutation (e :: l) (zins e l).
Proof.
  intros A e; induction l as [|x t IH]; [apply Permutation_refl|]. cbn [zins].
  destruct (Z.leb (fst e) (fst x)); [apply Permutation_refl|].
  eapply Permutation_trans; [apply perm_swap|]. constructor. exact IH.
Qed.
Lemma zsort_perm : forall A (l : list (Z * A)), Permutation l (zsort l).
Proof.
  induction l as [|e t IH]; [apply Permutation_refl|]. cbn [zsort].
  eapply Permutation_trans; [|apply zins_perm]. now constructor.
Qed.
Lemma zins_sorted : forall A (e : Z * A) l, StronglySorted (fun a b => (fst a < fst b)%Z) l -> ~ In (fst e) (map fst l) ->
  StronglySorted (fun a b => (fst a < fst b)%Z) (zins e l).
Proof.
  intros A e; induction l as [|x t IH]; intros S0 N; cbn [zins].
  - constructor; constructor.
  - cbn [map In] in N. inversion S0 as [|y r S1 F]; subst.
    destruct (Z.leb_spec (fst e) (fst x)) as [L|L].
    + constructor; [exact S0|]. constructor; [lia|].
      eapply Forall_impl; [|exact F]. intros b Hb. cbn beta in Hb. lia.
    + constructor; [apply IH; [exact S1|tauto]|].
      apply Forall_forall. intros b Hb. apply (Permutation_in b (Permutation_sym (zins_perm A e t))) in Hb.
      destruct Hb as [<-|Hb]; [lia|]. rewrite Forall_forall in F. now apply F.
Qed.
Lemma zsort_sorted : forall A (l : list (Z * A)), NoDup (map fst l) -> StronglySorted (fun a b => (fst a < fst b)%Z) (zsort l).
Proof.
  induction l as [|e t IH]; intro N; [constructor|]. cbn [map] in N. inversion N as [|x r N1 N2]; subst. cbn [zsort].
  apply zins_sorted; [now apply IH|]. intro H. apply N1.
  apply (Permutation_in _ (Permutation_map fst (Permutation_sym (zsort_perm A t)))). exact H.
Qed.
Lemma zsort_by_degree : forall A (l : list (Z * A)), degrees_differ l -> by_degree l (zsort l).
Proof. intros A l N. split; [apply zsort_perm|now apply zsort_sorted]. Qed.

Definition zk (kv : Z * string) : key * py := (KI (fst kv), PStr (snd kv)).
Lemma isort_zk : forall p, isort (map zk p) = map zk (zsort p).
Proof.
  assert (I : forall e l, insert (zk e) (map zk l) = map zk (zins e l)).
  { intros e; induction l as [|x t IH]; [reflexivity|]. cbn [map insert zins zk fst snd key_leb].
    destruct (Z.leb (fst e) (fst x)); [reflexivity|]. cbn [map]. f_equal. exact IH. }
  induction p as [|e t IH]; [reflexivity|]. cbn [map isort zsort]. now rewrite IH, I.
Qed.
Lemma json_poly : forall p, json_io (poly_ser p) = Ok (PDict (map (fun kv => (KS (dec (fst kv)), PStr (snd kv))) (zsort p))).
Proof.
  intro p. unfold poly_ser. rewrite json_dict.
  assert (E : json_entries (map zk p) = Ok (map zk p)).
  { unfold json_entries. induction p as [|e t IH]; [reflexivity|]. cbn [map mapM zk fst snd json_io bind]. now rewrite IH. }
  change (map (fun kv : Z * string => (KI (fst kv), PStr (snd kv))) p) with (map zk p). rewrite E. cbn [bind].
  assert (C : comparable (map zk p) = true).
  { destruct p as [|e t]; [reflexivity|]. cbn [map zk comparable]. rewrite forallb_forall. intros x H.
    apply in_map_iff in H. destruct H as [y [<- _]]. reflexivity. }
  rewrite C, isort_zk, map_map. reflexivity.
Qed.
Lemma zset_fresh : forall A k (v : A) l, ~ In k (map fst l) -> zset k v l = (l ++ [(k, v)])%list.
Proof.
  intros A k v; induction l as [|[x a] t IH]; intro N; [reflexivity|]. cbn [map fst In] in N. cbn [zset].
  destruct (Z.eqb_spec x k) as [E|E]; [tauto|]. rewrite IH by tauto. reflexivity.
Qed.
Lemma zdict_id : forall A (l : list (Z * A)), NoDup (map fst l) -> zdict l = l.
Proof.
  intros A l N. unfold zdict.
  assert (H : forall l acc : list (Z * A), NoDup (map fst (acc ++ l)%list) -> fold_left (fun d kv => zset (fst kv) (snd kv) d) l acc = (acc ++ l)%list).
  { clear l N. induction l as [|[k v] t IH]; intros acc N; [now rewrite app_nil_r|]. cbn [fold_left fst snd].
    rewrite zset_fresh.
    - rewrite IH; rewrite <- app_assoc; [reflexivity|exact N].
    - rewrite map_app in N. cbn [map fst] in N. apply NoDup_remove_2 in N. intro H. apply N. apply in_or_app. now left. }
  apply (H l []). exact N.
Qed.
Lemma poly_des_json : forall p, NoDup (map fst p) ->
  poly_des (PDict (map (fun kv => (KS (dec (fst kv)), PStr (snd kv))) p)) = Ok p.
Proof.
  intros p N. unfold poly_des. cbn [to_items bind].
  assert (E : mapM (fun kv => do k <- to_int (match fst kv with KS s => PStr s | KI z => PInt z end); Ok (k, snd kv))
     (map (fun kv : Z * string => (KS (dec (fst kv)), PStr (snd kv))) p) = Ok (map (fun kv => (fst kv, PStr (snd kv))) p)).
  { clear N. induction p as [|e t IH]; [reflexivity|]. cbn [map mapM fst snd to_int]. rewrite undec_dec. cbn [bind]. now rewrite IH. }
  rewrite E. cbn [bind]. rewrite zdict_id by (rewrite map_map; exact N).
  clear N E. induction p as [|[k v] t IH]; [reflexivity|]. cbn [map mapM fst snd to_str bind]. now rewrite IH.
Qed.
Lemma zsort_nodup : forall A (p : list (Z * A)), NoDup (map fst p) -> NoDup (map fst (zsort p)).
Proof. intros A p N. eapply Permutation_NoDup; [apply Permutation_map, zsort_perm|exact N]. Qed.

Lemma mapM_ints : forall l, mapM to_int (map PInt l) = Ok l.
Proof. induction l as [|a t IH]; [reflexivity|]. cbn [map mapM to_int bind]. now rewrite IH. Qed.
Lemma mapM_strs : forall l, mapM to_str (map PStr l) = Ok l.
Proof. induction l as [|a t IH]; [reflexivity|]. cbn [map mapM to_str bind]. now rewrite IH. Qed.

(* errors *)
Lemma json_err : forall e, atom (xe_type e) -> json_io (err_ser e) = Ok (err_ser e).
Proof.
  intros [t v] A. unfold err_ser. cbn [xe_type xe_value] in *. rewrite json_dict. unfold json_entries.
  cbn [mapM fst snd]. rewrite (json_atom t A). reflexivity.
Qed.
Lemma err_des_ser : forall e, err_des (err_ser e) = Ok e.
Proof. intros [t v]. reflexivity. Qed.

(* simple approximations *)
Definition spa_sorted (a : axspa) : axspa :=
  Axspa (zsort (a_poly a)) (a_fct a) (a_degs a) (a_fmts a) (a_itv a) (a_err a) (a_tag a).
Definition params_ser (a : axspa) : py :=
  PDict [(KS "degree_list", PList (map PInt (a_degs a))); (KS "format_list", PList (map PStr (a_fmts a)))].
Lemma json_params : forall a, json_io (params_ser a) = Ok (params_ser a).
Proof.
  intro a. unfold params_ser. rewrite json_dict. unfold json_entries. cbn [mapM fst snd].
  rewrite json_ints, json_strs. reflexivity.
Qed.

(* a dictionary as json writes it, and what the constructors read in it *)
Definition sorted_dict (l : list (key * py)) : py := PDict (map (fun e => (key_str (fst e), snd e)) (isort l)).
Lemma sort_spa : forall c f pr it pd er,
  sorted_dict [(KS "class", c); (KS "function", f); (KS "approx_params", pr); (KS "interval", it); (KS "approx_data", pd); (KS "approx_error", er)] =
  PDict [(KS "approx_data", pd); (KS "approx_error", er); (KS "approx_params", pr); (KS "class", c); (KS "function", f); (KS "interval", it)].
Proof. reflexivity. Qed.
Lemma sort_spa_tag : forall c f pr it pd er tg,
  sorted_dict [(KS "class", c); (KS "function", f); (KS "approx_params", pr); (KS "interval", it); (KS "approx_data", pd); (KS "approx_error", er); (KS "tag", tg)] =
  PDict [(KS "approx_data", pd); (KS "approx_error", er); (KS "approx_params", pr); (KS "class", c); (KS "function", f); (KS "interval", it); (KS "tag", tg)].
Proof. reflexivity. Qed.
Lemma sort_upwa : forall c f p i pr er tg ad,
  sorted_dict [(KS "class", c); (KS "function", f); (KS "precision", p); (KS "interval", i); (KS "approx_params", pr); (KS "approx_error", er); (KS "tag", tg); (KS "approx_data", ad)] =
  PDict [(KS "approx_data", ad); (KS "approx_error", er); (KS "approx_params", pr); (KS "class", c); (KS "function", f); (KS "interval", i); (KS "precision", p); (KS "tag", tg)].
Proof. reflexivity. Qed.
Lemma sort_upwa_params : forall x n m o e,
  sorted_dict [(KS "indexing", x); (KS "num_intervals", n); (KS "max_degree", m); (KS "odd", o); (KS "even", e)] =
  PDict [(KS "even", e); (KS "indexing", x); (KS "max_degree", m); (KS "num_intervals", n); (KS "odd", o)].
Proof. reflexivity. Qed.
Lemma sort_gps : forall c p pr i f er ad tg,
  sorted_dict [(KS "class", c); (KS "precision", p); (KS "approx_params", pr); (KS "interval", i); (KS "function", f); (KS "approx_error", er); (KS "approx_data", ad); (KS "tag", tg)] =
  PDict [(KS "approx_data", ad); (KS "approx_error", er); (KS "approx_params", pr); (KS "class", c); (KS "function", f); (KS "interval", i); (KS "precision", p); (KS "tag", tg)].
Proof. reflexivity. Qed.
Lemma sort_gps_params : forall f x m o e,
  sorted_dict [(KS "offset_fct", f); (KS "indexing", x); (KS "max_degree", m); (KS "odd", o); (KS "even", e)] =
  PDict [(KS "even", e); (KS "indexing", x); (KS "max_degree", m); (KS "odd", o); (KS "offset_fct", f)].
Proof. reflexivity. Qed.

Lemma des_spa : forall pd er pr f it, spa_des (PDict [(KS "approx_data", pd); (KS "approx_error", er); (KS "approx_params", pr); (KS "class", PStr spa_class); (KS "function", f); (KS "interval", it)]) =
  (do p <- poly_des pd; do dl <- field pr "degree_list"; do fl <- field pr "format_list"; do e <- err_des er;
   do fs <- to_str f; do dl' <- to_list dl; do degs <- mapM to_int dl'; do fl' <- to_list fl; do fmts <- mapM to_str fl';
   do is <- to_str it; Ok (Axspa p fs degs fmts is e (PStr ""))).
Proof. reflexivity. Qed.
Lemma des_spa_tag : forall pd er pr f it tg, spa_des (PDict [(KS "approx_data", pd); (KS "approx_error", er); (KS "approx_params", pr); (KS "class", PStr spa_class); (KS "function", f); (KS "interval", it); (KS "tag", tg)]) =
  (do p <- poly_des pd; do dl <- field pr "degree_list"; do fl <- field pr "format_list"; do e <- err_des er;
   do fs <- to_str f; do dl' <- to_list dl; do degs <- mapM to_int dl'; do fl' <- to_list fl; do fmts <- mapM to_str fl';
   do is <- to_str it; Ok (Axspa p fs degs fmts is e tg)).
Proof. reflexivity. Qed.
Lemma des_upwa : forall ad er c f i p tg x n m o e,
  upwa_des (PDict [(KS "approx_data", ad); (KS "approx_error", er);
    (KS "approx_params", PDict [(KS "even", e); (KS "indexing", x); (KS "max_degree", m); (KS "num_intervals", n); (KS "odd", o)]);
    (KS "class", c); (KS "function", f); (KS "interval", i); (KS "precision", p); (KS "tag", tg)]) =
  (do r <- err_des er; do al <- to_list ad; do l <- mapM spa_des al;
   do fs <- to_str f; do is <- to_str i; do ixs <- to_str x; do nz <- to_int n; do mdz <- to_int m; do ps <- to_str p;
   Ok (Axupwa fs is ixs nz mdz r (to_bool o) (to_bool e) l ps tg)).
Proof. reflexivity. Qed.
Lemma des_gps : forall ad er c f i p tg x m o e off,
  gps_des (PDict [(KS "approx_data", ad); (KS "approx_error", er);
    (KS "approx_params", PDict [(KS "even", e); (KS "indexing", x); (KS "max_degree", m); (KS "odd", o); (KS "offset_fct", off)]);
    (KS "class", c); (KS "function", f); (KS "interval", i); (KS "precision", p); (KS "tag", tg)]) =
  (do r <- err_des er; do al <- to_list ad; do l <- mapM spa_des al;
   do os <- to_str off; do ixs <- to_str x; do is <- to_str i; do ps <- to_str p; do mdz <- to_int m;
   Ok (Axgps os ixs is r ps l tg mdz o e)).
Proof. reflexivity. Qed.

Lemma params_fields : forall a, field (params_ser a) "degree_list" = Ok (PList (map PInt (a_degs a))) /\
  field (params_ser a) "format_list" = Ok (PList (map PStr (a_fmts a))).
Proof. intro a. split; reflexivity. Qed.

Lemma json_sorted : forall l r, json_entries l = Ok r -> comparable r = true -> json_io (PDict l) = Ok (sorted_dict r).
Proof. intros l r E C. rewrite json_dict, E. cbn [bind]. now rewrite C. Qed.

Lemma spa_reload : forall a, spa_ok a ->
  exists v, json_io (spa_ser a) = Ok v /\ spa_des v = Ok (spa_sorted a) /\ field v "class" = Ok (PStr spa_class).
Proof.
  intros a [D [E T]]. unfold spa_ser. fold (params_ser a).
  destruct (params_fields a) as [P1 P2].
  destruct (is_empty_str (a_tag a)) eqn:ET.
  - assert (TE : a_tag a = PStr "").
    { destruct (a_tag a) as [s| | | | |]; try discriminate ET. cbn [is_empty_str] in ET. apply String.eqb_eq in ET. now subst. }
    rewrite app_nil_r. eexists. split.
    { eapply json_sorted. { unfold json_entries. cbn [mapM fst snd]. rewrite json_params, json_poly, (json_err _ E). reflexivity. } reflexivity. }
    rewrite sort_spa. split; [|reflexivity]. rewrite des_spa, poly_des_json by (now apply zsort_nodup).
    rewrite P1, P2, err_des_ser. cbn [bind to_str to_list]. rewrite mapM_ints. cbn [bind]. rewrite mapM_strs. cbn [bind].
    unfold spa_sorted. now rewrite TE.
  - eexists. split.
    { eapply json_sorted. { cbn [List.app]. unfold json_entries. cbn [mapM fst snd].
      rewrite json_params, json_poly, (json_err _ E), (json_atom _ T). reflexivity. } reflexivity. }
    rewrite sort_spa_tag. split; [|reflexivity]. rewrite des_spa_tag, poly_des_json by (now apply zsort_nodup).
    rewrite P1, P2, err_des_ser. cbn [bind to_str to_list]. rewrite mapM_ints. cbn [bind]. rewrite mapM_strs. reflexivity.
Qed.

Lemma spa_list_reload : forall l, Forall spa_ok l ->
  exists r, mapM json_io (map spa_ser l) = Ok r /\ mapM spa_des r = Ok (map spa_sorted l).
Proof.
  induction l as [|a t IH]; intro F.
  - exists []. split; reflexivity.
  - inversion F as [|x y H1 H2]; subst. destruct (spa_reload a H1) as [v [J [S0 _]]]. destruct (IH H2) as [r [A B]].
    exists (v :: r). cbn [map mapM]. rewrite J, A. cbn [bind]. rewrite S0, B. split; reflexivity.
Qed.

Definition ax_sorted (x : axobj) : axobj :=
  match x with
  | XSpa a => XSpa (spa_sorted a)
  | XUpwa u => XUpwa (Axupwa (u_fct u) (u_itv u) (u_idx u) (u_num u) (u_maxd u) (u_err u) (u_odd u) (u_even u)
                             (map spa_sorted (u_list u)) (u_prec u) (u_tag u))
  | XGps g => XGps (Axgps (g_off g) (g_idx g) (g_itv g) (g_err g) (g_prec g) (map spa_sorted (g_list g)) (g_tag g)
                          (g_maxd g) (g_odd g) (g_even g))
  end.

Lemma upwa_reload : forall u, ax_ok (XUpwa u) ->
  exists v, json_io (upwa_ser u) = Ok v /\ (do w <- upwa_des v; Ok (XUpwa w)) = Ok (ax_sorted (XUpwa u)) /\ field v "class" = Ok (PStr upwa_class).
Proof.
  intros u [F [E T]]. destruct (spa_list_reload _ F) as [r [A B]]. unfold upwa_ser. eexists. split.
  { eapply json_sorted. { unfold json_entries. cbn [mapM fst snd].
    rewrite json_list, A, (json_err _ E), (json_atom _ T).
    rewrite (json_sorted [(KS "indexing", PStr (u_idx u)); (KS "num_intervals", PInt (u_num u)); (KS "max_degree", PInt (u_maxd u)); (KS "odd", PBool (u_odd u)); (KS "even", PBool (u_even u))] _ eq_refl eq_refl).
    reflexivity. } reflexivity. }
  rewrite sort_upwa_params, sort_upwa. split; [|reflexivity]. rewrite des_upwa, err_des_ser. cbn [bind to_list]. rewrite B. reflexivity.
Qed.
Lemma gps_reload : forall g, ax_ok (XGps g) ->
  exists v, json_io (gps_ser g) = Ok v /\ (do w <- gps_des v; Ok (XGps w)) = Ok (ax_sorted (XGps g)) /\ field v "class" = Ok (PStr gps_class).
Proof.
  intros g [F [E [T [O0 V0]]]]. destruct (spa_list_reload _ F) as [r [A B]]. unfold gps_ser. eexists. split.
  { eapply json_sorted. { unfold json_entries. cbn [mapM fst snd].
    rewrite json_list, A, (json_err _ E), (json_atom _ T).
    rewrite (json_sorted [(KS "offset_fct", PStr (g_off g)); (KS "indexing", PStr (g_idx g)); (KS "max_degree", PInt (g_maxd g)); (KS "odd", g_odd g); (KS "even", g_even g)]
      [(KS "offset_fct", PStr (g_off g)); (KS "indexing", PStr (g_idx g)); (KS "max_degree", PInt (g_maxd g)); (KS "odd", g_odd g); (KS "even", g_even g)]);
      [reflexivity| |reflexivity].
    unfold json_entries. cbn [mapM fst snd]. rewrite (json_atom _ O0), (json_atom _ V0). reflexivity. } reflexivity. }
  rewrite sort_gps_params, sort_gps. split; [|reflexivity]. rewrite des_gps, err_des_ser. cbn [bind to_list]. rewrite B. reflexivity.
Qed.

Lemma spa_sorted_same : forall a, spa_ok a -> spa_same a (spa_sorted a).
Proof. intros a [D _]. unfold spa_same, spa_sorted. cbn. split; [now apply zsort_by_degree|]. repeat split. Qed.
Lemma ax_sorted_same : forall x, ax_ok x -> ax_same x (ax_sorted x).
Proof.
  assert (L : forall l, Forall spa_ok l -> Forall2 spa_same l (map spa_sorted l)).
  { induction l as [|a t IH]; intro F; [constructor|]. inversion F; subst. cbn [map]. constructor; [now apply spa_sorted_same|now apply IH]. }
  intros [u|g|a] H; cbn [ax_sorted ax_same].
  - destruct H as [F _]. split; [now apply L|]. repeat split.
  - destruct H as [F _]. split; [now apply L|]. repeat split.
  - now apply spa_sorted_same.
Qed.

Section V.
Variable V : Type.
Variables (sparse : string -> V) (vabs : V -> V).
Lemma import_reload : forall x, ax_ok x ->
  exists v, json_io (serialize x) = Ok v /\ (forall l, v <> PList l) /\ import_dict V sparse vabs v = to_ml V sparse vabs (ax_sorted x).
Proof.
  intros [u|g|a] H; cbn [serialize].
  - destruct (upwa_reload u H) as [v [J [D C]]]. exists v. split; [exact J|]. split; [intros l ->; discriminate C|].
    unfold import_dict. rewrite C. cbn [bind]. rewrite String.eqb_refl. destruct (upwa_des v) as [w|e]; [|discriminate D].
    cbn [bind] in D |- *. injection D as ->. reflexivity.
  - destruct (gps_reload g H) as [v [J [D C]]]. exists v. split; [exact J|]. split; [intros l ->; discriminate C|].
    unfold import_dict. rewrite C. cbn [bind]. change (String.eqb upwa_class gps_class) with false. rewrite String.eqb_refl. cbv iota.
    destruct (gps_des v) as [w|e]; [|discriminate D]. cbn [bind] in D |- *. injection D as ->. reflexivity.
  - destruct (spa_reload a H) as [v [J [D C]]]. exists v. split; [exact J|]. split; [intros l ->; discriminate C|].
    unfold import_dict. rewrite C. cbn [bind]. change (String.eqb upwa_class spa_class) with false.
    change (String.eqb gps_class spa_class) with false. rewrite String.eqb_refl. cbv iota. rewrite D. reflexivity.
Qed.
Lemma write_read_one : forall x, ax_ok x -> write_read V sparse vabs (serialize x) = (do o <- to_ml V sparse vabs (ax_sorted x); Ok (One V o)).
Proof.
  intros x H. destruct (import_reload x H) as [v [J [N D]]]. unfold write_read. rewrite J. cbn [bind].
  unfold import_value. destruct v; try (rewrite D; reflexivity). now elim (N l).
Qed.
Lemma write_read_many : forall l, Forall ax_ok l ->
  write_read V sparse vabs (PList (map serialize l)) = (do r <- mapM (to_ml V sparse vabs) (map ax_sorted l); Ok (Many V r)).
Proof.
  intros l F. unfold write_read. rewrite json_list.
  assert (E : exists vs, mapM json_io (map serialize l) = Ok vs /\ mapM (import_dict V sparse vabs) vs = mapM (to_ml V sparse vabs) (map ax_sorted l)).
  { induction l as [|x t IH]; [exists []; split; reflexivity|]. inversion F; subst. destruct (IH H2) as [vs [A B]].
    destruct (import_reload x H1) as [v [J [_ D]]]. exists (v :: vs). cbn [map mapM]. rewrite J, A. cbn [bind]. now rewrite D, B. }
  destruct E as [vs [A B]]. rewrite A. cbn [bind import_value]. now rewrite B.
Qed.
End V.

(* ------------------------------------------------------------------ *)
(* formats                                                              *)
(* ------------------------------------------------------------------ *)
Lemma fixed_then : forall sg i f r, no_digit_first r -> precision_parser (fmt_str (Fixed sg i f) ++ r) = Ok (PF (Fixed sg i f)).
Proof.
  intros sg i f r N. unfold precision_parser, fmt_str.
  assert (M : fixed_match (((if sg then "FS" else "FU") ++ dec i ++ "." ++ dec f) ++ r) = Some (Fixed sg i f)).
  { rewrite app_assoc_s. rewrite (app_assoc_s (dec i)). rewrite (app_assoc_s "."). 
    assert (X : signed_digits (dec i ++ "." ++ dec f ++ r) = Some (i, "." ++ dec f ++ r)) by (apply signed_digits_dec; reflexivity).
    assert (Y : signed_digits (dec f ++ r) = Some (f, r)) by (now apply signed_digits_dec).
    destruct sg; cbn [append fixed_match]; [change (Ascii.eqb "S" "U" || Ascii.eqb "S" "S") with true|change (Ascii.eqb "U" "U" || Ascii.eqb "U" "S") with true];
      cbv iota; cbn [append] in X; rewrite X; cbv iota beta; rewrite Y; reflexivity. }
  rewrite M. destruct sg; reflexivity.
Qed.
Lemma precision_readable : forall f, readable f -> precision_parser (fmt_str f) = Ok (PF f).
Proof.
  intros [| | | | | | | | |n|n|sg i f] R; try destruct R; try reflexivity.
  rewrite <- (app_nil_s (fmt_str _)). now apply fixed_then.
Qed.
Lemma undec_bad : forall c t, is_digit c = false -> c <> "-"%char -> undec (String c t) = None.
Proof.
  intros c t D M. unfold undec, NilZero.int_of_string. rewrite (proj2 (Ascii.eqb_neq c _) M).
  unfold NilZero.uint_of_string. cbn [NilEmpty.uint_of_string]. destruct (NilEmpty.uint_of_string t) as [d|];
    destruct c as [[] [] [] [] [] [] [] []]; try reflexivity; discriminate D.
Qed.
Lemma sget_none : forall A (l : list (string * A)) x, Forall (fun e => fst e <> x) l -> sget l x = None.
Proof.
  intros A; induction l as [|[k v] t IH]; intros x F; [reflexivity|]. inversion F; subst. cbn [sget].
  destruct (String.eqb_spec k x) as [E|N]; [contradiction|now apply IH].
Qed.
Lemma int_name_unread : forall a n, a = "int" \/ a = "uint" -> precision_parser (a ++ dec n ++ "_t") = Raise EParse.
Proof.
  assert (L : forall s t, String.length t = 2%nat -> t <> "_t" -> t <> s ++ "_t").
  { intros s t T N E. assert (G := f_equal String.length E). rewrite length_app_s in G. cbn [String.length] in G.
    destruct s; [now apply N|cbn [String.length] in G; lia]. }
  intros a n [-> | ->]; unfold precision_parser; (rewrite sget_none;
   [|repeat (apply Forall_cons; [cbn [fst append]; intro E; first [discriminate E | injection E as E; revert E; apply L; [reflexivity|discriminate]]|]); apply Forall_nil]).
  - change ("int" ++ dec n ++ "_t") with (String "i" ("nt" ++ dec n ++ "_t")). rewrite undec_bad by (reflexivity || discriminate). reflexivity.
  - change ("uint" ++ dec n ++ "_t") with (String "u" ("int" ++ dec n ++ "_t")). rewrite undec_bad by (reflexivity || discriminate). reflexivity.
Qed.
Lemma undec_F : forall s f, fixed_match s = Some f -> undec s = None.
Proof.
  intros s f E. destruct s as [|c t]; [discriminate|].
  destruct c as [[] [] [] [] [] [] [] []]; try discriminate E. apply undec_bad; [reflexivity|discriminate].
Qed.
Lemma number_read : forall z, precision_parser (dec z) = Ok (PNum z).
Proof.
  intro z. unfold precision_parser.
  assert (G : forall A (l : list (string * A)), Forall (fun e => undec (fst e) = None) l -> sget l (dec z) = None).
  { intros A; induction l as [|[k v] t IH]; intro F; [reflexivity|]. inversion F; subst. cbn [sget].
    destruct (String.eqb_spec k (dec z)) as [->|N]; [cbn [fst] in *; rewrite undec_dec in *; discriminate|now apply IH]. }
  rewrite G by (repeat (constructor; [reflexivity|]); constructor).
  destruct (fixed_match (dec z)) as [f|] eqn:M; [apply undec_F in M; rewrite undec_dec in M; discriminate|].
  rewrite G by (repeat (constructor; [reflexivity|]); constructor). now rewrite undec_dec.
Qed.

(* ------------------------------------------------------------------ *)
(* indexings                                                            *)
(* ------------------------------------------------------------------ *)
Lemma fp_reload : forall V (show : V -> string) (sparse : string -> V) low mx f p,
  idx_parse sparse (idx_str show (IFp low mx f p)) = Ok (IFp low mx f p).
Proof.
  intros. unfold idx_parse, idx_str. rewrite strip_app, !int_then_dec.
  replace (fpname_str p ++ ")") with (fpname_str p ++ String ")"%char "") by reflexivity.
  rewrite until_app by (destruct p; cbn; repeat split; discriminate). destruct p; reflexivity.
Qed.
Lemma uni_reload : forall V (show : V -> string) (sparse : string -> V) itv n, lacks quote (show itv) ->
  idx_parse sparse (idx_str show (IUni itv n)) = Ok (IUni (sparse (show itv)) n).
Proof.
  intros V show sparse itv n L. unfold idx_parse, idx_str.
  change (strip "SubFPIndexing(" ("SubUniformIntervalIndexing(" ++ Q1 ++ show itv ++ Q1 ++ ", " ++ dec n ++ ")")) with (@None string). cbv iota.
  rewrite <- (app_assoc_s "SubUniformIntervalIndexing(" Q1), strip_app.
  change (Q1 ++ ", " ++ dec n ++ ")") with (String quote (", " ++ dec n ++ ")")). rewrite until_app by exact L.
  rewrite strip_app. change (dec n ++ ")") with (dec n ++ String ")"%char "").
  rewrite until_app by (apply dec_lacks; [reflexivity|discriminate]). now rewrite undec_dec.
Qed.
