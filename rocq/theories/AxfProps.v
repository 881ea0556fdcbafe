(* Approximation files: what is read back, and what cannot be (C124). *)
From Coq Require Import ZArith Lia List Bool String Ascii Permutation Sorted.
From Verif Require Import AxfModel AxfSpec AxfProofs.
Import ListNotations.
Open Scope string_scope.

(* an object written to a file and read back has the same fields *)
Theorem axf_reload : forall V (sparse : string -> V) vabs x, ax_ok x ->
  exists y, ax_same x y /\
            write_read V sparse vabs (serialize x) = (do o <- to_ml V sparse vabs y; Ok (One V o)).
Proof. intros V sparse vabs x H. exists (ax_sorted x). split; [now apply ax_sorted_same|now apply write_read_one]. Qed.

(* lists of objects keep their order *)
Theorem axf_reload_list : forall V (sparse : string -> V) vabs l, Forall ax_ok l ->
  exists l', Forall2 ax_same l l' /\
             write_read V sparse vabs (PList (map serialize l)) = (do r <- mapM (to_ml V sparse vabs) l'; Ok (Many V r)).
Proof.
  intros V sparse vabs l F. exists (map ax_sorted l). split; [|now apply write_read_many].
  induction F as [|x t H F IH]; [constructor|]. cbn [map]. constructor; [now apply ax_sorted_same|exact IH].
Qed.

Lemma spa_ok_of : forall V (show : V -> string) fstr s tag, degrees_differ (s_poly V s) -> atom tag -> spa_ok (spa_of V show s fstr tag).
Proof.
  intros V show fstr s tag D T. unfold spa_ok, spa_of. cbn [a_poly a_err a_tag err_from xe_type]. split; [|split; [exact I|exact T]].
  unfold degrees_differ in *. rewrite zdict_id; rewrite map_map; exact D.
Qed.

Definition fstr (p : pformat) : string := match p with PF f => fmt_str f | PNum z => dec z end.

Lemma formats_read : forall l, Forall readable_p l -> mapM precision_parser (map fstr l) = Ok l.
Proof.
  induction l as [|p t IH]; intro F; [reflexivity|]. inversion F as [|x y R F']; subst. cbn [map mapM].
  destruct p as [f|z]; [|destruct R]. cbn [fstr]. rewrite (precision_readable f R). cbn [bind]. now rewrite IH.
Qed.
Lemma zsort_map : forall A B (g : A -> B) l, zsort (map (fun kv => (fst kv, g (snd kv))) l) = map (fun kv => (fst kv, g (snd kv))) (zsort l).
Proof.
  intros A B g. assert (I : forall e l, zins (fst e, g (snd e)) (map (fun kv : Z * A => (fst kv, g (snd kv))) l) = map (fun kv => (fst kv, g (snd kv))) (zins e l)).
  { intros e; induction l as [|x t IH]; [reflexivity|]. cbn [map zins fst snd]. destruct (Z.leb (fst e) (fst x)); [reflexivity|]. cbn [map]. now rewrite IH. }
  induction l as [|e t IH]; [reflexivity|]. cbn [map zsort]. now rewrite IH, I.
Qed.

(* values that a file keeps *)
Definition kept {V} (show : V -> string) (sparse : string -> V) (v : V) : Prop := sparse (show v) = v.
Definition spa_kept {V} (show : V -> string) (sparse : string -> V) (vabs : V -> V) (s : mlspa V) : Prop :=
  degrees_differ (s_poly V s) /\ Forall (fun kv => kept show sparse (snd kv)) (s_poly V s) /\ kept show sparse (s_fct V s) /\
  kept show sparse (s_itv V s) /\ Forall readable_p (s_fmts V s) /\ kept show sparse (m_val V (s_err V s)) /\
  vabs (m_val V (s_err V s)) = m_val V (s_err V s).

Lemma err_kept : forall V (show : V -> string) sparse vabs e, kept show sparse (m_val V e) -> vabs (m_val V e) = m_val V e ->
  err_export V sparse vabs (err_from V show e) = Ok e.
Proof.
  intros V show sparse vabs [k v] K A. unfold kept in K. cbn [m_val] in K, A. unfold err_export, err_from. cbn [xe_type xe_value m_kind m_val].
  destruct k; cbn [kind_str]; [change (String.eqb "absolute" "absolute") with true|
    change (String.eqb "relative" "absolute") with false; change (String.eqb "relative" "relative") with true]; cbv iota; rewrite K, A; reflexivity.
Qed.
Lemma spa_export_kept : forall V (show : V -> string) sparse vabs s tag, spa_kept show sparse vabs s ->
  exists s', mlspa_same s s' /\ spa_export V sparse vabs (spa_sorted (spa_of V show s fstr tag)) = Ok s'.
Proof.
  intros V show sparse vabs s tag (D & P & F & I0 & R & E & A).
  exists (Mlspa V (zsort (s_poly V s)) (s_fct V s) (s_degs V s) (s_fmts V s) (s_itv V s) (s_err V s)). split.
  - unfold mlspa_same. cbn. split; [now apply zsort_by_degree|]. repeat split.
  - unfold spa_export, spa_sorted, spa_of. cbn [a_fmts a_err a_poly a_fct a_degs a_itv].
    rewrite (formats_read _ R). cbn [bind]. rewrite (err_kept V show sparse vabs _ E A). cbn [bind].
    rewrite zdict_id by (rewrite map_map; exact D). rewrite zsort_map, map_map. rewrite F, I0. cbn [fst snd].
    f_equal. f_equal. rewrite <- (map_id (zsort (s_poly V s))) at 2. apply map_ext_in. intros [k v] H. cbn [fst snd].
    rewrite Forall_forall in P. f_equal. apply (P (k, v)).
    apply (Permutation_in _ (Permutation_sym (zsort_perm V (s_poly V s)))). exact H.
Qed.

(* a simple approximation of the library, written and read: the same one *)
Theorem axf_simple_values : forall V (show : V -> string) sparse vabs s tag, spa_kept show sparse vabs s -> atom tag ->
  exists s', mlspa_same s s' /\ write_read V sparse vabs (spa_ser (spa_of V show s fstr tag)) = Ok (One V (OSpa V s')).
Proof.
  intros V show sparse vabs s tag K T. destruct (spa_export_kept V show sparse vabs s tag K) as [s' [S0 E]].
  exists s'. split; [exact S0|]. change (spa_ser (spa_of V show s fstr tag)) with (serialize (XSpa (spa_of V show s fstr tag))).
  rewrite write_read_one by (apply spa_ok_of; [apply K|exact T]). cbn [ax_sorted to_ml]. now rewrite E.
Qed.

(* a piecewise one, built as in approximation.py:138, 228-246 *)
Definition idx_kept {V} (show : V -> string) (sparse : string -> V) (i : indexing V) : Prop :=
  match i with IFp _ _ _ _ => True | IUni itv _ => kept show sparse itv /\ lacks quote (show itv) | IMant _ => False end.
Definition gps_of {V} (show : V -> string) (off itv : V) (ix : indexing V) (maxd : Z) (e : mlerr V) (p : fmt) (l : list (mlspa V)) (odd even : bool) : axgps :=
  Axgps (show off) (idx_str show ix) (show itv) (err_from V show e) (fmt_str p) (map (fun s => spa_of V show s fstr (PStr "")) l) (PStr "") maxd (PBool odd) (PBool even).

Lemma idx_read : forall V (show : V -> string) sparse ix, idx_kept show sparse ix -> idx_parse sparse (idx_str show ix) = Ok ix.
Proof.
  intros V show sparse [low mx f p|itv n|k] H; [apply fp_reload| |destruct H].
  destruct H as [K L]. rewrite uni_reload by exact L. now rewrite K.
Qed.

Theorem axf_piecewise_values : forall V (show : V -> string) sparse vabs off itv ix maxd e p l odd even,
  idx_kept show sparse ix -> readable p -> kept show sparse (m_val V e) -> vabs (m_val V e) = m_val V e -> Forall (spa_kept show sparse vabs) l ->
  exists l', Forall2 mlspa_same l l' /\
    write_read V sparse vabs (gps_ser (gps_of show off itv ix maxd e p l odd even)) =
    Ok (One V (OGps V (Mlgps V (show off) ix maxd e (PF p) (PStr "") l' odd even))).
Proof.
  intros V show sparse vabs off itv ix maxd e p l odd even X R E A F.
  assert (L : exists l', Forall2 mlspa_same l l' /\ mapM (spa_export V sparse vabs) (map spa_sorted (map (fun s => spa_of V show s fstr (PStr "")) l)) = Ok l').
  { induction F as [|s t H F IH]; [exists []; split; [constructor|reflexivity]|].
    destruct IH as [l' [I1 I2]]. destruct (spa_export_kept V show sparse vabs s (PStr "") H) as [s' [S1 S2]].
    exists (s' :: l'). split; [now constructor|]. cbn [map mapM]. rewrite S2. cbn [bind]. now rewrite I2. }
  destruct L as [l' [L1 L2]]. exists l'. split; [exact L1|].
  change (gps_ser (gps_of show off itv ix maxd e p l odd even)) with (serialize (XGps (gps_of show off itv ix maxd e p l odd even))).
  rewrite write_read_one.
  - cbn [ax_sorted to_ml]. unfold gps_export, gps_of. cbn [g_idx g_err g_prec g_list g_off g_maxd g_tag g_odd g_even].
    rewrite (idx_read V show sparse ix X). cbn [bind]. rewrite (err_kept V show sparse vabs e E A). cbn [bind].
    rewrite (precision_readable p R). cbn [bind]. rewrite L2. reflexivity.
  - unfold gps_of. cbn [ax_ok g_list g_err g_tag g_odd g_even err_from xe_type atom]. split; [|repeat split].
    rewrite Forall_map. eapply Forall_impl; [|exact F]. intros s H. apply spa_ok_of; [apply H|exact I].
Qed.

(* a coefficient that the display does not keep comes back different *)
Theorem axf_display_refuted : forall V (show : V -> string) (sparse : string -> V) vabs s tag k v, degrees_differ (s_poly V s) -> atom tag ->
  In (k, v) (s_poly V s) -> ~ kept show sparse v ->
  forall o, write_read V sparse vabs (spa_ser (spa_of V show s fstr tag)) = Ok (One V (OSpa V o)) ->
  In (k, sparse (show v)) (s_poly V o) /\ ~ In (k, v) (s_poly V o).
Proof.
  intros V show sparse vabs s tag k v D T H K o W.
  change (spa_ser (spa_of V show s fstr tag)) with (serialize (XSpa (spa_of V show s fstr tag))) in W.
  rewrite write_read_one in W by (apply spa_ok_of; assumption). cbn [ax_sorted to_ml] in W.
  unfold spa_export, spa_sorted, spa_of in W. cbn [a_fmts a_err a_poly a_fct a_degs a_itv] in W.
  destruct (mapM precision_parser (map fstr (s_fmts V s))) as [fm|]; [|discriminate W]. cbn [bind] in W.
  destruct (err_export V sparse vabs (err_from V show (s_err V s))) as [e|]; [|discriminate W]. cbn [bind] in W.
  injection W as W. subst o. cbn [s_poly]. rewrite zdict_id by (rewrite map_map; exact D). rewrite zsort_map, map_map. cbn [fst snd].
  assert (M : In (k, v) (zsort (s_poly V s))) by (apply (Permutation_in _ (zsort_perm V (s_poly V s))); exact H).
  split.
  - apply in_map_iff. exists (k, v). split; [reflexivity|exact M].
  - intro C. apply in_map_iff in C. destruct C as [[k' v'] [Q H']]. cbn [fst snd] in Q. injection Q as -> Q.
    assert (N : NoDup (map fst (zsort (s_poly V s)))) by (now apply zsort_nodup).
    assert (S0 : v' = v).
    { clear -N M H'. induction (zsort (s_poly V s)) as [|[a b] t IH]; [destruct M|]. cbn [map fst] in N. inversion N as [|x y N1 N2]; subst.
      destruct M as [M|M], H' as [H'|H'].
      - congruence.
      - injection M as -> ->. elim N1. apply (in_map fst) in H'. exact H'.
      - injection H' as -> ->. elim N1. apply (in_map fst) in M. exact M.
      - now apply IH. }
    subst v'. apply K. exact Q.
Qed.

(* names of formats *)
Theorem format_names : forall f, precision_parser (fmt_str f) = Ok (PF f) <-> readable f.
Proof.
  intro f. split; [|apply precision_readable].
  destruct f as [| | | | | | | | |n|n|sg i f]; try (intros _; exact I); intro H; try discriminate H.
  - cbn [fmt_str] in H. rewrite int_name_unread in H by (now left). discriminate H.
  - cbn [fmt_str] in H. rewrite int_name_unread in H by (now right). discriminate H.
Qed.
(* all the other formats are refused *)
Theorem format_names_refused : forall f, ~ readable f -> precision_parser (fmt_str f) = Raise EParse.
Proof.
  intros [| | | | | | | | |n|n|sg i f] N; try (elim N; exact I); try reflexivity.
  - apply int_name_unread. now left.
  - apply int_name_unread. now right.
Qed.
(* text after a fixed-point format is ignored, a number is taken for a format *)
Theorem format_text_refuted :
  (forall sg i f t, no_digit_first t -> precision_parser (fmt_str (Fixed sg i f) ++ t) = Ok (PF (Fixed sg i f))) /\
  (forall z, precision_parser (dec z) = Ok (PNum z)).
Proof. split; [intros; now apply fixed_then|apply number_read]. Qed.

(* indexings *)
Theorem indexing_text : forall V (show : V -> string) (sparse : string -> V),
  (forall low mx f p, idx_parse sparse (idx_str show (IFp low mx f p)) = Ok (IFp low mx f p)) /\
  (forall itv n, lacks quote (show itv) -> idx_parse sparse (idx_str show (IUni itv n)) = Ok (IUni (sparse (show itv)) n)).
Proof. intros. split; [apply fp_reload|apply uni_reload]. Qed.
Theorem indexing_mantissa_refuted : forall V (show : V -> string) sparse vabs off itv k maxd e p l odd even,
  Forall (fun s => degrees_differ (s_poly V s)) l ->
  write_read V sparse vabs (gps_ser (gps_of show off itv (IMant k) maxd e p l odd even)) = Raise EParse.
Proof.
  intros V show sparse vabs off itv k maxd e p l odd even F.
  change (gps_ser (gps_of show off itv (IMant k) maxd e p l odd even)) with (serialize (XGps (gps_of show off itv (IMant k) maxd e p l odd even))).
  rewrite write_read_one; [reflexivity|]. unfold gps_of. cbn [ax_ok g_list g_err g_tag g_odd g_even err_from xe_type atom]. split; [|repeat split].
  rewrite Forall_map. eapply Forall_impl; [|exact F]. intros s H. apply spa_ok_of; [exact H|exact I].
Qed.

(* errors other than absolute and relative are refused *)
Theorem axf_error_kind : forall V (sparse : string -> V) vabs a, spa_ok a -> (forall f, In f (a_fmts a) -> exists p, precision_parser f = Ok p) ->
  xe_type (a_err a) <> PStr "absolute" -> xe_type (a_err a) <> PStr "relative" ->
  write_read V sparse vabs (spa_ser a) = Raise ENotImplemented.
Proof.
  intros V sparse vabs a H F N1 N2. change (spa_ser a) with (serialize (XSpa a)). rewrite write_read_one by exact H.
  cbn [ax_sorted to_ml]. unfold spa_export, spa_sorted. cbn [a_fmts a_err].
  assert (M : exists l, mapM precision_parser (a_fmts a) = Ok l).
  { induction (a_fmts a) as [|f t IH]; [exists []; reflexivity|]. destruct (F f (or_introl eq_refl)) as [p P].
    destruct IH as [l L]; [intros g G; apply F; now right|]. exists (p :: l). cbn [mapM]. rewrite P. cbn [bind]. now rewrite L. }
  destruct M as [l M]. rewrite M. cbn [bind].
  assert (E : err_export V sparse vabs (a_err a) = Raise ENotImplemented); [|now rewrite E].
  unfold err_export. destruct (xe_type (a_err a)) as [s| | | | |]; try reflexivity.
  destruct (String.eqb_spec s "absolute") as [->|]; [now elim N1|]. destruct (String.eqb_spec s "relative") as [->|]; [now elim N2|]. reflexivity.
Qed.

(* dictionaries of no known class are refused *)
Theorem axf_class : forall V (sparse : string -> V) vabs l c, dget l (KS "class") = Some (PStr c) ->
  c <> "!PieceWiseApprox" -> c <> "!GenericPolynomialSplit" -> c <> "!SimplePolyApprox" ->
  import_value V sparse vabs (PDict l) = Raise EUnknownClass.
Proof.
  intros V sparse vabs l c G N1 N2 N3. unfold import_value, import_dict, field. rewrite G. cbn [bind].
  unfold upwa_class, gps_class, spa_class.
  rewrite (proj2 (String.eqb_neq _ c)) by congruence. rewrite (proj2 (String.eqb_neq _ c)) by congruence.
  rewrite (proj2 (String.eqb_neq _ c)) by congruence. reflexivity.
Qed.

(* two files differing in the interval of the split, or in the tag of a simple
   approximation, give the same object *)
Theorem axf_lost_fields : forall V (sparse : string -> V) vabs,
  (forall g i, ax_ok (XGps g) -> write_read V sparse vabs (gps_ser g) =
     write_read V sparse vabs (gps_ser (Axgps (g_off g) (g_idx g) i (g_err g) (g_prec g) (g_list g) (g_tag g) (g_maxd g) (g_odd g) (g_even g)))) /\
  (forall a t, spa_ok a -> atom t -> write_read V sparse vabs (spa_ser a) =
     write_read V sparse vabs (spa_ser (Axspa (a_poly a) (a_fct a) (a_degs a) (a_fmts a) (a_itv a) (a_err a) t))).
Proof.
  intros V sparse vabs. split.
  - intros g i H. pose (g' := Axgps (g_off g) (g_idx g) i (g_err g) (g_prec g) (g_list g) (g_tag g) (g_maxd g) (g_odd g) (g_even g)).
    assert (W := write_read_one V sparse vabs (XGps g) H). assert (W' := write_read_one V sparse vabs (XGps g') H).
    cbn [serialize] in W, W'. fold g'. rewrite W, W'. reflexivity.
  - intros a t H T. pose (a' := Axspa (a_poly a) (a_fct a) (a_degs a) (a_fmts a) (a_itv a) (a_err a) t).
    assert (H' : ax_ok (XSpa a')) by (split; [apply H|]; split; [apply H|exact T]).
    assert (W := write_read_one V sparse vabs (XSpa a) H). assert (W' := write_read_one V sparse vabs (XSpa a') H').
    cbn [serialize] in W, W'. fold a'. rewrite W, W'. reflexivity.
Qed.

(* the three conversions from objects of the library always raise *)
Theorem axf_from_objects_refuted : from_SPA = Raise EAttribute /\ from_UPWA = Raise EAttribute /\ from_GPS = Raise ENameErr.
Proof. repeat split. Qed.

(* ------------------------------------------------------------------ *)
(* examples: values are texts, shown as they are                        *)
(* ------------------------------------------------------------------ *)
Definition ex_s : mlspa string :=
  Mlspa string [(3%Z, "0x1.8p-2"); (1%Z, "1")] "tanh(x)" [1%Z; 3%Z] [PF Single; PF (Fixed true (-2) 13)] "[0;1]" (Mlerr string Relative "0x1p-30").
Example ex_kept : spa_kept (fun s => s) (fun s => s) (fun s => s) ex_s.
Proof.
  unfold spa_kept, kept. cbn. repeat split; repeat constructor; cbn; try (intros [H|[]]; discriminate H); tauto.
Qed.
Example ex_written : write_read string (fun s => s) (fun s => s) (spa_ser (spa_of string (fun s => s) ex_s fstr (PStr "t"))) =
  Ok (One string (OSpa string (Mlspa string [(1%Z, "1"); (3%Z, "0x1.8p-2")] "tanh(x)" [1%Z; 3%Z] [PF Single; PF (Fixed true (-2) 13)] "[0;1]" (Mlerr string Relative "0x1p-30")))).
Proof. reflexivity. Qed.
Definition ex_g ix p := gps_of (fun s : string => s) "tanh(x)" "[0;4]" ix 5 (Mlerr string Absolute "1b-20") p [ex_s] true false.
Example ex_split : write_read string (fun s => s) (fun s => s) (gps_ser (ex_g (IUni "[0;4]" 8) Double)) =
  Ok (One string (OGps string (Mlgps string "tanh(x)" (IUni "[0;4]" 8) 5 (Mlerr string Absolute "1b-20") (PF Double) (PStr "")
    [Mlspa string [(1%Z, "1"); (3%Z, "0x1.8p-2")] "tanh(x)" [1%Z; 3%Z] [PF Single; PF (Fixed true (-2) 13)] "[0;1]" (Mlerr string Relative "0x1p-30")] true false))).
Proof. reflexivity. Qed.
Example ex_split_fp : exists o, write_read string (fun s => s) (fun s => s) (gps_ser (ex_g (IFp (-3) 2 4 NBinary32) Single)) = Ok (One string (OGps string o)) /\
  p_idx string o = IFp (-3) 2 4 NBinary32.
Proof. eexists. split; reflexivity. Qed.
Example ex_long_double : write_read string (fun s => s) (fun s => s) (gps_ser (ex_g (IUni "[0;4]" 8) LongDouble)) = Raise EParse.
Proof. reflexivity. Qed.
Example ex_mantissa : write_read string (fun s => s) (fun s => s) (gps_ser (ex_g (IMant 4) Double)) = Raise EParse.
Proof. reflexivity. Qed.
Example ex_upwa_list :
  let u := Axupwa "exp(x)" "[0;1]" "SubUniformIntervalIndexing(""[0;1]"", 2)" 2 4 (Axerr (PStr "relative") "1b-10") false true [] "double" (PStr "") in
  ax_ok (XUpwa u) /\ exists o, write_read string (fun s => s) (fun s => s) (PList [upwa_ser u; spa_ser (spa_of string (fun s => s) ex_s fstr (PStr ""))]) =
    Ok (Many string [OUpwa string o; OSpa string (Mlspa string [(1%Z, "1"); (3%Z, "0x1.8p-2")] "tanh(x)" [1%Z; 3%Z] [PF Single; PF (Fixed true (-2) 13)] "[0;1]" (Mlerr string Relative "0x1p-30"))]) /\
    w_even string o = true /\ w_num string o = 2%Z.
Proof. split; [split; [constructor|split; exact I]|]. eexists. split; [reflexivity|]. split; reflexivity. Qed.
Example ex_texts : precision_parser "FS3.-2_abc" = Ok (PF (Fixed true 3 (-2))) /\ precision_parser "1" = Ok (PNum 1) /\ precision_parser "int32" = Ok (PF (SInt 32)) /\
  precision_parser (fmt_str (SInt 32)) = Raise EParse.
Proof. repeat split. Qed.
(* a display of one digit *)
Example ex_display : let show := fun v : Z => dec (v / 10) in let sparse := fun s => match undec s with Some z => (10 * z)%Z | None => 0%Z end in
  ~ kept show sparse 17%Z /\ kept show sparse 30%Z.
Proof. split; [vm_compute; discriminate|reflexivity]. Qed.
Example ex_kind : exists a, spa_ok a /\ write_read string (fun s => s) (fun s => s) (spa_ser a) = Raise ENotImplemented.
Proof. exists (Axspa [(0%Z, "1")] "f" [0%Z] ["float"] "[0;1]" (Axerr (PStr "mixed") "1") PNone). split; [repeat split; constructor; [intros []|constructor]|reflexivity]. Qed.
Example ex_class : import_value string (fun s => s) (fun s => s) (PDict [(KS "class", PStr "!Polynomial")]) = Raise EUnknownClass.
Proof. reflexivity. Qed.

Print Assumptions axf_reload.
Print Assumptions axf_reload_list.
Print Assumptions axf_simple_values.
Print Assumptions axf_piecewise_values.
Print Assumptions axf_display_refuted.
Print Assumptions format_names.
Print Assumptions format_names_refused.
Print Assumptions format_text_refuted.
Print Assumptions indexing_text.
Print Assumptions indexing_mantissa_refuted.
Print Assumptions axf_error_kind.
Print Assumptions axf_class.
Print Assumptions axf_lost_fields.
Print Assumptions axf_from_objects_refuted.
