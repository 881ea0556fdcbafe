(* Typing passes: the theorems. *)
From Coq Require Import ZArith QArith Qabs List Bool Permutation Lia Lqa.
From Verif Require Import QUtil FpFormatModel FpFormatSpec TypModel TypSpec TypProofs.
Import ListNotations.
Open Scope Z_scope.

(* ---- 1. the passes succeed and give the formats of the specification ---- *)
Theorem typing_formats : forall cv e, determined cv e -> NoDup (csts e) ->
  exists st, typing cv e (fun _ => None) = Some (with_formats cv e, st) /\
    (forall o, part o e -> is_cst o = false -> supported (format_of cv o)) /\
    (forall o i g, part o e -> constant_format cv o i g -> st i = Some g).
Proof.
  intros cv e D N. unfold typing.
  destruct (first_pass cv e (fun _ => None) D (fun i => or_introl eq_refl)) as (s1 & E1 & _ & _ & C1).
  rewrite E1. destruct (second_pass cv e s1 D N C1) as (s2 & E2 & _ & _ & T2).
  exists s2. split; [exact E2|split; [|exact T2]].
  intros o P Hc. clear - D P Hc. induction P as [|k f itv args a Ha P IH].
  - apply (all_good cv o D Hc).
  - apply IH. cbn [determined] in D. destruct D as (_ & Da & _). apply fold_all in Da.
    rewrite Forall_forall in Da. apply Da. exact Ha.
Qed.
(* (x32 * y64) + 1 with floating-point x, y and an integer constant; n + k with integers of
   both signs *)
Definition ex_e : expr := Op KArith None None [Op KArith None None [Var (FFP 32); Var (FFP 64)]; Cst 0].
Example typing_formats_ex :
  determined (fun _ => CInt 1) ex_e /\ NoDup (csts ex_e) /\ format_of (fun _ => CInt 1) ex_e = FFP 64 /\
  constant_format (fun _ => CInt 1) ex_e 0 (FFP 64) /\
  constant_format (fun _ => CInt 1) (Op KCmp None None [Var (FFP 32); Cst 0]) 0 (FFP 32) /\
  constant_format (fun _ => CInt 1) (Op KSelect None None [Op KCmp None None [Var (FFP 32); Cst 1]; Var (FFP 64); Cst 0]) 0 (FFP 64) /\
  format_of (fun _ => CReal 0.5) (Op KArith None None [Var (FInt 32 true); Cst 0]) = FFP 32 /\
  format_of (fun _ => CInt 1) (Op KArith None None [Var (FInt 32 true); Var (FInt 64 false)]) = FInt 64 true.
Proof.
  split; [cbn; intuition congruence|]. split; [cbn; repeat constructor; intros []|].
  split; [reflexivity|]. split; [cbn; tauto|]. split; [cbn; intuition congruence|]. split; [cbn; tauto|]. split; reflexivity.
Qed.

(* ---- 2. the order of the operands does not matter ---- *)
Lemma fold_max_perm : forall l l', Permutation l l' -> fold_right Z.max 0 l = fold_right Z.max 0 l'.
Proof. intros l l' P. induction P; cbn [fold_right]; congruence || lia. Qed.
Lemma existsb_perm : forall (A : Type) (g : A -> bool) l l', Permutation l l' -> existsb g l = existsb g l'.
Proof.
  intros A g l l' P. induction P; cbn [existsb]; try congruence.
  destruct (g x), (g y); reflexivity.
Qed.
Theorem merge_order : forall f l l', Permutation l l' ->
  (f = AFloat \/ (f = AInt /\ forall g, In g l -> is_abstract g = true \/ exists n s, g = FInt n s)) ->
  merge_ops (Some f) (map Some l) = merge_ops (Some f) (map Some l').
Proof.
  assert (forall l : list fmt, all_some (map Some l) = Some l) as A.
  { induction l as [|x l IH]; [reflexivity|]. cbn [map all_some]. rewrite IH. reflexivity. }
  assert (forall (g : fmt -> bool) l l', Permutation l l' -> Permutation (filter g l) (filter g l')) as PF.
  { intros g l l' P. induction P; cbn [filter].
    - constructor.
    - destruct (g x); auto.
    - destruct (g x), (g y); auto using perm_swap, Permutation_refl.
    - etransitivity; eauto. }
  intros f l l' P H. unfold merge_ops. rewrite !A.
  assert (Permutation (concretes l) (concretes l')) as PC by (apply PF; exact P).
  assert (max_bits l = max_bits l') as EM by (apply fold_max_perm; apply Permutation_map; exact PC).
  destruct H as [->|[-> H]].
  - unfold merge_float. rewrite EM. destruct (concretes l) as [|x xs] eqn:E1, (concretes l') as [|y ys] eqn:E2; auto.
    + apply Permutation_nil in PC. discriminate.
    + apply Permutation_sym, Permutation_nil in PC. discriminate.
  - unfold merge_integer. rewrite EM.
    assert (forall m, (forall g, In g m -> is_abstract g = true \/ exists n s, g = FInt n s) ->
      any_signed (concretes m) = Some (existsb signed (concretes m))) as AS.
    { induction m as [|g m IH]; intro Hm; [reflexivity|]. unfold concretes. cbn [filter]. fold (concretes m).
      assert (any_signed (concretes m) = Some (existsb signed (concretes m))) as IH' by (apply IH; intros; apply Hm; right; auto).
      destruct (Hm g (or_introl eq_refl)) as [Ha|(n & s & ->)]; [rewrite Ha; exact IH'|].
      cbn [is_abstract negb any_signed get_signed existsb signed]. destruct s; [reflexivity|exact IH']. }
    rewrite (AS l H), (AS l'); [|intros g Hg; apply H; apply (Permutation_in _ (Permutation_sym P)); exact Hg].
    rewrite (existsb_perm _ signed _ _ PC). reflexivity.
Qed.
Example merge_order_ex : merge_ops (Some AInt) (map Some [FInt 32 true; AInt; FInt 64 false]) = Some (FInt 64 true).
Proof. reflexivity. Qed.

(* ---- 3. which operands keep their values in the format of the result ---- *)
Lemma odd_not_representable : forall F z, Z.odd z = true -> 2 ^ (fsz F + 1) <= Z.abs z -> ~ representable F (inject_Z z).
Proof.
  intros F z Ho Hz (m & e & Hm & _ & E). destruct (Z_le_gt_dec e 0) as [He|He].
  - assert (inject_Z z * p2 (- e) == inject_Z m)%Q as E2.
    { rewrite E. rewrite <- Qmult_assoc, <- p2_plus, Z.add_opp_diag_r. change (p2 0) with 1%Q. ring. }
    rewrite p2_Z, <- inject_Z_mult in E2 by lia. unfold Qeq in E2. cbn [Qnum Qden inject_Z] in E2.
    assert (1 <= 2 ^ (- e)) by (pose proof (Z.pow_pos_nonneg 2 (- e)); lia). nia.
  - rewrite p2_Z, <- inject_Z_mult in E by lia. unfold Qeq in E. cbn [Qnum Qden inject_Z] in E.
    assert (z = 2 * (m * 2 ^ (e - 1))) as E3.
    { replace (2 ^ e) with (2 * 2 ^ (e - 1)) in E by (rewrite <- Z.pow_succ_r by lia; f_equal; lia). lia. }
    rewrite E3, Z.odd_mul in Ho. discriminate Ho.
Qed.
Lemma int_representable : forall F z, 0 < fsz F -> 0 <= 2 ^ (esz F - 1) - 1 - fsz F -> 2 - 2 ^ (esz F - 1) - fsz F <= 0 ->
  Z.abs z < 2 ^ (fsz F + 1) -> representable F (inject_Z z).
Proof. intros F z _ H1 H2 Hz. exists z, 0. split; [exact Hz|]. split; [lia|]. change (p2 0) with 1%Q. ring. Qed.
Lemma fits_comp : forall f u v, (u == v)%Q -> fits f u -> fits f v.
Proof.
  intros f u v E H. destruct f; cbn [fits] in *; auto.
  - destruct H as (m & e & A & B & C). exists m, e. rewrite <- E. auto.
  - destruct H as (z & A & B). exists z. rewrite <- E. auto.
Qed.
Lemma fp_contained : forall n m, supported (FFP n) -> supported (FFP m) -> n <= m -> contained (FFP n) (FFP m).
Proof.
  intros n m Hn Hm Hle v (k & e & A & B & C).
  cbn [supported] in *. exists k, e. split; [|split; [|exact C]]; clear C.
  - destruct Hn as [->|[->| ->]], Hm as [->|[->| ->]]; cbn [Z.eqb Pos.eqb fsz ML_Binary16 ML_Binary32 ML_Binary64] in *; lia.
  - destruct Hn as [->|[->| ->]], Hm as [->|[->| ->]]; cbn [Z.eqb Pos.eqb fsz esz ML_Binary16 ML_Binary32 ML_Binary64] in *; lia.
Qed.
Lemma int_fp_contained : forall s, contained (FInt 32 s) (FFP 64).
Proof.
  intros s v (z & E & H). apply (fits_comp (FFP 64) (inject_Z z)); [symmetry; exact E|].
  cbn [fits Z.eqb Pos.eqb]. apply int_representable; cbn [fsz esz ML_Binary64]; try lia. destruct s; lia.
Qed.
Lemma int_contained : forall n s m t, n = 32 \/ n = 64 -> m = 32 \/ m = 64 ->
  (n < m \/ s = t) -> n <= m -> (s = true -> t = true) -> contained (FInt n s) (FInt m t).
Proof.
  intros n s m t Hn Hm H Hle Hs v (z & E & B). exists z. split; [exact E|].
  destruct Hn as [-> | ->], Hm as [-> | ->], s, t; try lia; try (specialize (Hs eq_refl); discriminate Hs);
    destruct H as [H|H]; try lia; discriminate H.
Qed.
Lemma not_contained_fp : forall n s, n = 32 \/ n = 64 -> ~ contained (FInt n s) (FFP n).
Proof.
  intros n s Hn C.
  assert (exists z, Z.odd z = true /\ fits (FInt n s) (inject_Z z) /\ 2 ^ (fsz (if n =? 32 then ML_Binary32 else ML_Binary64) + 1) <= Z.abs z)
    as (z & Ho & F & Hz).
  { destruct Hn as [-> | ->].
    - exists (2 ^ 24 + 1). split; [reflexivity|]. split; [exists (2 ^ 24 + 1); split; [reflexivity|destruct s; lia]|].
      cbn [Z.eqb Pos.eqb fsz ML_Binary32]. lia.
    - exists (2 ^ 53 + 1). split; [reflexivity|]. split; [exists (2 ^ 53 + 1); split; [reflexivity|destruct s; lia]|].
      cbn [Z.eqb Pos.eqb fsz ML_Binary64]. lia. }
  specialize (C _ F). cbn [fits] in C. apply (odd_not_representable _ z) in C; auto.
  destruct Hn as [-> | ->]; exact Hz.
Qed.
Lemma not_contained_int : forall n, n = 32 \/ n = 64 -> ~ contained (FInt n false) (FInt n true).
Proof.
  intros n Hn C.
  assert (fits (FInt n false) (inject_Z (2 ^ (n - 1)))) as F.
  { exists (2 ^ (n - 1)). split; [reflexivity|]. destruct Hn as [-> | ->]; lia. }
  destruct (C _ F) as (z & E & H). unfold Qeq in E. cbn [Qnum Qden inject_Z] in E. lia.
Qed.
Lemma bits_largest : forall l f, In f l -> bits f <= largest l.
Proof.
  induction l as [|g l IH]; intros f H; [destruct H|].
  unfold largest. cbn [map fold_right]. fold (largest l). destruct H as [<-|H]; [lia|]. specialize (IH f H). lia.
Qed.
Theorem merged_exact : forall b l, l <> [] -> (forall f, In f l -> supported f /\ (b = false -> is_ffp f = false)) ->
  (forall f, In f l -> contained f (merged b l)) <->
  (forall n s, In (FInt n s) l -> n < largest l \/ (b = false /\ (s = true \/ forall f, In f l -> signed f = false))).
Proof.
  intros b l Hn H. pose proof (merged_supported b l Hn H) as [S _].
  assert (existsb signed l = false <-> (forall f, In f l -> signed f = false)) as ES.
  { split.
    - intros E f Hf. destruct (signed f) eqn:F; auto. assert (existsb signed l = true) by (apply existsb_exists; eauto). congruence.
    - intro E. destruct (existsb signed l) eqn:F; auto. apply existsb_exists in F. destruct F as (f & A & B). rewrite E in B by auto. discriminate. }
  unfold merged in *. split.
  - intros C n s Hi. destruct (H _ Hi) as [Sn _]. cbn [supported] in Sn. pose proof (bits_largest l _ Hi) as Hb. cbn [bits] in Hb.
    destruct (Z.eq_dec n (largest l)) as [E|E]; [|left; lia]. specialize (C _ Hi).
    destruct b.
    + exfalso. rewrite <- E in C. exact (not_contained_fp n s Sn C).
    + right. split; [reflexivity|]. destruct s; [left; reflexivity|right]. rewrite <- ES.
      destruct (existsb signed l); auto. exfalso. rewrite <- E in C. exact (not_contained_int n Sn C).
  - intros C f Hf. destruct (H f Hf) as [Sf Nf]. pose proof (bits_largest l _ Hf) as Hb.
    destruct f as [n|n s|? ?| | |]; try (solve [destruct Sf]); cbn [bits] in Hb.
    + destruct b; [|specialize (Nf eq_refl); discriminate Nf]. apply fp_contained; auto.
    + destruct b.
      * cbn [supported] in Sf, S. destruct (C n s Hf) as [L|[L _]]; [|discriminate L].
        assert (n = 32 /\ largest l = 64) as [-> ->] by lia. apply int_fp_contained.
      * cbn [supported] in Sf, S. apply int_contained; auto.
        -- destruct (C n s Hf) as [L|[_ [L|L]]]; [left; exact L| |].
           ++ right. subst s. symmetry. apply existsb_exists. exists (FInt n true). auto.
           ++ right. rewrite (proj2 ES L). apply (L (FInt n s) Hf).
        -- intro. subst s. apply existsb_exists. exists (FInt n true). auto.
Qed.
Example merged_exact_ex :
  contained (FInt 32 false) (merged true [FInt 32 false; FFP 64]) /\ merged true [FInt 32 true; FFP 16] = FFP 32 /\
  ~ contained (FInt 32 true) (FFP 32) /\ merged false [FInt 32 true; FInt 32 false] = FInt 32 true /\
  ~ contained (FInt 32 false) (FInt 32 true).
Proof.
  split; [apply int_fp_contained|]. split; [reflexivity|]. split; [apply not_contained_fp; auto|].
  split; [reflexivity|apply not_contained_int; auto].
Qed.

(* ---- 4. the integer format chosen from an interval ---- *)
Lemma qle_int : forall a b, Qle_bool (inject_Z a) (inject_Z b) = (a <=? b).
Proof. intros a b. unfold Qle_bool. cbn [Qnum Qden inject_Z]. rewrite !Z.mul_1_r. reflexivity. Qed.
Theorem integer_format_contains : forall lo hi, lo <= hi ->
  let f := integer_format (Some (inject_Z lo, inject_Z hi)) in
  ((forall z, lo <= z <= hi -> fits f (inject_Z z)) <->
   (- 2 ^ 63 <= lo /\ hi <= (if lo <? 0 then 2 ^ 63 - 1 else 2 ^ 64 - 1))) /\
  (bits f = 32 <-> (if lo <? 0 then - 2 ^ 31 <= lo /\ hi <= 2 ^ 31 - 1 else hi < 2 ^ 32 - 1)) /\
  (bits f = 32 \/ bits f = 64) /\ signed f = (lo <? 0).
Proof.
  intros lo hi Hle. cbn [integer_format]. change 0%Q with (inject_Z 0). rewrite !qle_int. cbv zeta.
  assert (forall n s z, fits (FInt n s) (inject_Z z) <-> if s then - 2 ^ (n - 1) <= z < 2 ^ (n - 1) else 0 <= z < 2 ^ n) as FI.
  { intros n s z. cbn [fits]. split.
    - intros (y & E & H). unfold Qeq in E. cbn [Qnum Qden inject_Z] in E. replace z with y by lia. exact H.
    - intro H. exists z. split; [reflexivity|exact H]. }
  destruct (Z.ltb_spec lo 0) as [L|L], (Z.leb_spec 0 lo) as [L'|L']; try lia; cbn [negb].
  - destruct (Z.leb_spec hi (2 ^ 31 - 1)), (Z.leb_spec (- 2 ^ 31) lo); cbn [negb orb bits signed];
      (split; [|split; [|split; [|reflexivity]]]); try lia.
    all: split; [intro H'; pose proof (proj1 (FI _ _ _) (H' lo ltac:(lia))) as A; pose proof (proj1 (FI _ _ _) (H' hi ltac:(lia))) as B; cbv iota in A, B; lia
      |intros [A B] z Hz; apply FI; cbv iota; lia].
  - destruct (Z.leb_spec (2 ^ 32 - 1) hi); cbn [bits signed]; (split; [|split; [|split; [|reflexivity]]]); try lia.
    all: split; [intro H'; pose proof (proj1 (FI _ _ _) (H' lo ltac:(lia))) as A; pose proof (proj1 (FI _ _ _) (H' hi ltac:(lia))) as B; cbv iota in A, B; lia
      |intros [A B] z Hz; apply FI; cbv iota; lia].
Qed.
Example integer_format_ex :
  integer_format (Some (inject_Z (-1075), inject_Z 1024)) = FInt 32 true /\
  integer_format (Some (inject_Z 0, inject_Z (2 ^ 32 - 2))) = FInt 32 false /\
  integer_format (Some (inject_Z 0, inject_Z (2 ^ 32 - 1))) = FInt 64 false /\
  integer_format (Some (inject_Z (-1), inject_Z (2 ^ 31))) = FInt 64 true.
Proof. repeat split. Qed.

(* ---- 5. formats given by the author of the function are kept ---- *)
Inductive kept : expr -> expr -> Prop :=
| kept_var : forall f, kept (Var f) (Var f)
| kept_cst : forall i, kept (Cst i) (Cst i)
| kept_op : forall k f f' itv args args', (forall g, f = Some g -> is_abstract g = false -> f' = f) ->
    Forall2 kept args args' -> kept (Op k f itv args) (Op k f' itv args').
Lemma go_kept : forall (h : expr -> store -> option (expr * store)) args,
  Forall (fun e => forall st e' st', h e st = Some (e', st') -> kept e e') args ->
  forall st args' st', go h args st = Some (args', st') -> Forall2 kept args args'.
Proof.
  intros h args H. induction H as [|a l Ha Hl IH]; intros st args' st' E; cbn [go] in E.
  - injection E as <- _. constructor.
  - destruct (h a st) as [[b s1]|] eqn:E1; [|discriminate]. destruct (go h l s1) as [[r s2]|] eqn:E2; [|discriminate].
    injection E as <- _. constructor; [eapply Ha; eauto|eapply IH; eauto].
Qed.
Lemma abs_kept : forall cv e st e' st', abs_expr cv e st = Some (e', st') -> kept e e'.
Proof.
  intro cv. apply (expr_rec' (fun e => forall st e' st', abs_expr cv e st = Some (e', st') -> kept e e')).
  - intros f st e' st' E. injection E as <- _. constructor.
  - intros i st e' st' E. cbn [abs_expr] in E. destruct (st i); injection E as <- _; constructor.
  - intros k f itv args IH st e' st' E. cbn [abs_expr] in E.
    destruct (go (abs_expr cv) args st) as [[r s1]|] eqn:E1; [|discriminate].
    pose proof (go_kept _ _ IH _ _ _ E1) as K.
    destruct f as [f|].
    + injection E as <- _. constructor; auto.
    + destruct (abs_rule k (map (prec s1) r)); [|discriminate]. injection E as <- _. constructor; auto. discriminate.
Qed.
Lemma inst_kept : forall e st e' st', inst_expr e st = Some (e', st') -> kept e e'.
Proof.
  apply (expr_rec' (fun e => forall st e' st', inst_expr e st = Some (e', st') -> kept e e')).
  - intros f st e' st' E. injection E as <- _. constructor.
  - intros i st e' st' E. injection E as <- _. constructor.
  - intros k f itv args IH st e' st' E. cbn [inst_expr] in E.
    destruct (go inst_expr args st) as [[r s1]|] eqn:E1; [|discriminate].
    pose proof (go_kept _ _ IH _ _ _ E1) as K.
    destruct (if match f with Some a => is_abstract a | None => false end then inst_rule k f itv (map (prec s1) r) else Some f) as [f'|] eqn:E2; [|discriminate].
    destruct (post_rule k f' r s1); [|discriminate]. injection E as <- _. constructor; auto.
    intros g -> Hg. rewrite Hg in E2. injection E2 as <-. reflexivity.
Qed.
Lemma kept_trans : forall a b c, kept a b -> kept b c -> kept a c.
Proof.
  apply (expr_rec' (fun a => forall b c, kept a b -> kept b c -> kept a c)).
  - intros f b c H. inversion H; subst. auto.
  - intros i b c H. inversion H; subst. auto.
  - intros k f itv args IH b c H1 H2. inversion H1 as [| |? ? f1 ? ? args' A1 F1]; subst. inversion H2 as [| |? ? f2 ? ? args'0 A2 F2]; subst. constructor.
    + intros g -> Hg. specialize (A1 g eq_refl Hg). subst f1. apply (A2 g); auto.
    + clear - IH F1 F2. revert args' args'0 F1 F2. induction IH as [|x l Hx Hl IHl]; intros l1 l2 A B.
      * inversion A; subst. inversion B; subst. constructor.
      * inversion A; subst. inversion B; subst. constructor; eauto.
Qed.
(* whatever the expression, the operations stay, and a concrete format is never replaced *)
Theorem explicit_formats_kept : forall cv e st e' st', typing cv e st = Some (e', st') -> kept e e'.
Proof.
  intros cv e st e' st' E. unfold typing in E. destruct (abs_expr cv e st) as [[e1 s1]|] eqn:E1; [|discriminate].
  apply (kept_trans e e1 e'); [eapply abs_kept; eauto|eapply inst_kept; eauto].
Qed.
Example explicit_ex :
  match typing (fun _ => CInt 1) (Op KArith None None [Op KArith (Some (FFP 64)) None [Var (FFP 32); Cst 0]; Var (FFP 32)]) (fun _ => None) with
  | Some (e, st) => e = Op KArith (Some (FFP 64)) None [Op KArith (Some (FFP 64)) None [Var (FFP 32); Cst 0]; Var (FFP 32)] /\ st 0%nat = Some (FFP 64)
  | None => False
  end.
Proof. split; reflexivity. Qed.

(* ---- 6. constants ---- *)
(* an integer constant of an operation fits its format exactly in these cases *)
Theorem constant_fits_partial : forall z,
  (forall n s, fits (FInt n s) (inject_Z z) <-> if s then - 2 ^ (n - 1) <= z < 2 ^ (n - 1) else 0 <= z < 2 ^ n) /\
  (Z.abs z < 2 ^ 53 -> fits (FFP 64) (inject_Z z)) /\ (Z.abs z < 2 ^ 24 -> fits (FFP 32) (inject_Z z)) /\
  (Z.abs z < 2 ^ 11 -> fits (FFP 16) (inject_Z z)).
Proof.
  intro z. split; [|split; [|split]].
  - intros n s. cbn [fits]. split.
    + intros (y & E & H). unfold Qeq in E. cbn [Qnum Qden inject_Z] in E. replace z with y by lia. exact H.
    + intro H. exists z. split; [reflexivity|exact H].
  - intro H. cbn [fits Z.eqb Pos.eqb]. apply int_representable; cbn [fsz esz ML_Binary64]; lia.
  - intro H. cbn [fits Z.eqb Pos.eqb]. apply int_representable; cbn [fsz esz ML_Binary32]; lia.
  - intro H. cbn [fits Z.eqb Pos.eqb]. apply int_representable; cbn [fsz esz ML_Binary16]; lia.
Qed.
(* x + c typed: the constant has the format of x, whatever its value *)
Lemma typing_x_plus_c : forall cv f, supported f -> (forall q, cv 0%nat <> CSpecial q) -> (is_ffp f = false -> exists z, cv 0%nat = CInt z) ->
  exists st, typing cv (Op KArith None None [Var f; Cst 0]) (fun _ => None) = Some (Op KArith (Some f) None [Var f; Cst 0], st) /\ st 0%nat = Some f.
Proof.
  intros cv f S NS HZ.
  destruct f as [n|n s|? ?| | |]; try (solve [destruct S]); cbn [supported] in S.
  - destruct (cv 0%nat) eqn:E; [| |exfalso; eapply NS; eauto];
      destruct S as [->|[->| ->]]; eexists; (split; [unfold typing; cbn [abs_expr go]; rewrite ?E; reflexivity|cbv; rewrite ?E; reflexivity]).
  - destruct (HZ eq_refl) as (z & E). destruct S as [-> | ->], s; eexists; (split; [unfold typing; cbn [abs_expr go]; rewrite ?E; reflexivity|cbv; rewrite ?E; reflexivity]).
Qed.
Theorem constant_fits_refuted :
  (* a negative constant in an operation on unsigned numbers *)
  (forall z n, z < 0 -> n = 32 \/ n = 64 -> exists st,
     typing (fun _ => CInt z) (Op KArith None None [Var (FInt n false); Cst 0]) (fun _ => None)
       = Some (Op KArith (Some (FInt n false)) None [Var (FInt n false); Cst 0], st) /\
     st 0%nat = Some (FInt n false) /\ ~ fits (FInt n false) (inject_Z z)) /\
  (* a constant wider than the other operand *)
  (forall z, 2 ^ 31 <= z -> exists st,
     typing (fun _ => CInt z) (Op KArith None None [Var (FInt 32 true); Cst 0]) (fun _ => None)
       = Some (Op KArith (Some (FInt 32 true)) None [Var (FInt 32 true); Cst 0], st) /\
     st 0%nat = Some (FInt 32 true) /\ ~ fits (FInt 32 true) (inject_Z z)) /\
  (* an odd integer of more than 24 bits with a binary32 operand *)
  (forall z, Z.odd z = true -> 2 ^ 24 <= Z.abs z -> exists st,
     typing (fun _ => CInt z) (Op KArith None None [Var (FFP 32); Cst 0]) (fun _ => None)
       = Some (Op KArith (Some (FFP 32)) None [Var (FFP 32); Cst 0], st) /\
     st 0%nat = Some (FFP 32) /\ ~ fits (FFP 32) (inject_Z z)).
Proof.
  split; [|split].
  - intros z n Hz Hn. destruct (typing_x_plus_c (fun _ => CInt z) (FInt n false)) as (st & A & B);
      [exact Hn|discriminate|intros _; eauto|]. exists st. split; [exact A|split; [exact B|]].
    rewrite (proj1 (constant_fits_partial z)). lia.
  - intros z Hz. destruct (typing_x_plus_c (fun _ => CInt z) (FInt 32 true)) as (st & A & B);
      [left; reflexivity|discriminate|intros _; eauto|]. exists st. split; [exact A|split; [exact B|]].
    rewrite (proj1 (constant_fits_partial z)). lia.
  - intros z Ho Hz. destruct (typing_x_plus_c (fun _ => CInt z) (FFP 32)) as (st & A & B);
      [cbn; tauto|discriminate|discriminate|]. exists st. split; [exact A|split; [exact B|]].
    cbn [fits Z.eqb Pos.eqb]. apply odd_not_representable; auto.
Qed.

(* ---- 7. what the passes do not type ---- *)
(* a constant shared by two operations has the format of the one typed first: the second is
   then typed from that format; an integer operation after a floating-point one keeps a
   floating-point constant, takes its size, and raises when the other operand is unsigned *)
Theorem shared_constant_refuted : forall z,
  let cv := fun _ : nat => CInt z in let x64 := Op KArith None None [Var (FFP 64); Cst 0] in
  let y32 := Op KArith None None [Var (FFP 32); Cst 0] in let n32 := Op KArith None None [Var (FInt 32 true); Cst 0] in
  let u32 := Op KArith None None [Var (FInt 32 false); Cst 0] in
  let fmts l := match go (abs_expr cv) l (fun _ => None) with
                | Some (l, st) => match go inst_expr l st with Some (l, st) => Some (map (prec st) l) | None => None end
                | None => None end in
  fmts [y32; x64] = Some [Some (FFP 32); Some (FFP 64)] /\ fmts [x64; y32] = Some [Some (FFP 64); Some (FFP 64)] /\
  fmts [n32; y32] = Some [Some (FInt 32 true); Some (FFP 32)] /\ 
  fmts [n32; x64] = Some [Some (FInt 32 true); Some (FFP 64)] /\ fmts [x64; n32] = Some [Some (FFP 64); Some (FInt 64 true)] /\
  fmts [u32; y32] = Some [Some (FInt 32 false); Some (FFP 32)] /\ fmts [y32; u32] = None.
Proof. intro z. cbv zeta. split; [reflexivity|]. split; [reflexivity|]. split; [reflexivity|]. split; [reflexivity|]. split; [reflexivity|]. split; reflexivity. Qed.

(* operations on constants only raise *)
Theorem constants_only_refuted : forall cv k itv args, k = KArith \/ k = KUnary -> Forall (fun a => is_cst a = true) args ->
  (forall i f, cv i <> CSpecial f) -> typing cv (Op k None itv args) (fun _ => None) = None.
Proof.
  intros cv k itv args Hk Hc NS. unfold typing. cbn [abs_expr].
  assert (forall st, fresh cv st -> exists st', go (abs_expr cv) args st = Some (args, st') /\ fresh cv st' /\ keeps st st' /\
    (forall i, In (Cst i) args -> st' i = Some (cst_abstract (cv i)))) as G.
  { induction Hc as [|a l Ha Hl IH]; intros st F.
    - exists st. split; [reflexivity|split; [exact F|split; [intros ? ?; reflexivity|intros i []]]].
    - destruct a as [|j|]; try discriminate.
      destruct (first_pass cv (Cst j) st) as (s1 & E1 & F1 & K1 & C1); [|exact F|].
      { cbn [determined]. destruct (cv j) eqn:E; auto. eapply NS; eauto. }
      destruct (IH s1 F1) as (s2 & E2 & F2 & K2 & C2). exists s2. cbn [go]. rewrite E1, E2.
      split; [reflexivity|split; [exact F2|split]].
      + intros i Hi. rewrite K2; [apply K1; exact Hi|]. rewrite K1 by exact Hi. exact Hi.
      + intros i [Hi|Hi]; [|apply C2; exact Hi]. injection Hi as ->. rewrite K2; [apply C1; left; reflexivity|].
        rewrite C1 by (left; reflexivity). discriminate. }
  destruct (G (fun _ => None)) as (s1 & E1 & _ & _ & C1); [intro i; left; reflexivity|]. rewrite E1. clear G E1.
  assert (all_some (map (prec s1) args) = Some (map (fun a => match a with Cst i => cst_abstract (cv i) | _ => AInt end) args)) as AS.
  { clear Hk. induction Hc as [|a l Ha Hl IH]; [reflexivity|]. destruct a as [|j|]; try discriminate.
    cbn [map all_some prec]. rewrite C1 by (left; reflexivity). rewrite IH; [reflexivity|]. intros i Hi. apply C1. right. exact Hi. }
  set (r := map (fun a => match a with Cst i => cst_abstract (cv i) | _ => AInt end) args) in *.
  assert (concretes r = []) as CR.
  { subst r. clear - Hc NS. induction Hc as [|a l Ha Hl IH]; [reflexivity|]. destruct a as [|j|]; try discriminate.
    unfold concretes. cbn [map filter]. fold (concretes (map (fun a => match a with Cst i => cst_abstract (cv i) | _ => AInt end) l)). rewrite IH.
    destruct (cv j) eqn:E; try reflexivity. exfalso. eapply NS; eauto. }
  assert (forall f, match abs_rule k (map (prec s1) args) with Some f => inst_rule k (Some f) itv (map (prec s1) args) | None => None end = f -> f = None) as N.
  { assert (merge_float r = None) as MF by (unfold merge_float; rewrite CR; reflexivity).
    assert (merge_integer r = None) as MI by (unfold merge_integer, max_bits; rewrite CR; reflexivity).
    intros f <-. destruct Hk as [-> | ->]; cbn [abs_rule]; unfold merge_abstract_o; rewrite AS;
      destruct (merge_abstract r) as [g|]; try reflexivity; cbn [inst_rule]; unfold merge_ops; rewrite AS;
      destruct g; rewrite ?MF, ?MI; reflexivity. }
  destruct (abs_rule k (map (prec s1) args)) as [f|] eqn:EA; [|reflexivity]. cbn [inst_expr].
  assert (go inst_expr args s1 = Some (args, s1)) as GI.
  { clear - Hc. induction Hc as [|a l Ha Hl IH]; [reflexivity|]. destruct a; try discriminate. cbn [go inst_expr]. rewrite IH. reflexivity. }
  rewrite GI. assert (is_abstract f = true) as IA.
  { destruct Hk as [-> | ->]; cbn [abs_rule] in EA; unfold merge_abstract_o in EA; rewrite AS in EA; unfold merge_abstract in EA;
      destruct (existsb is_float r); [injection EA as <-; reflexivity| |injection EA as <-; reflexivity|];
      (destruct (existsb is_integer r); [injection EA as <-; reflexivity|]);
      (destruct (existsb is_bool r); [injection EA as <-; reflexivity|discriminate]). }
  rewrite IA. rewrite (N _ eq_refl). reflexivity.
Qed.
Example constants_only_ex : typing (fun i => CInt (Z.of_nat i)) (Op KArith None None [Cst 1; Cst 2]) (fun _ => None) = None.
Proof. reflexivity. Qed.

(* a comparison of constants, or of binary16 numbers with a constant, takes its format away
   from the constant: a second run of the passes then raises *)
Theorem comparison_refuted : forall z,
  let cv := fun _ : nat => CInt z in let e := Op KCmp None None [Var (FFP 16); Cst 0] in
  let e2 := Op KCmp None None [Cst 0; Cst 1] in
  (exists st, typing cv e (fun _ => None) = Some (Op KCmp (Some (FInt 32 true)) None [Var (FFP 16); Cst 0], st) /\ st 0%nat = None) /\
  (exists st, typing cv e2 (fun _ => None) = Some (Op KCmp (Some (FInt 32 true)) None [Cst 0; Cst 1], st) /\
     st 0%nat = None /\ st 1%nat = None) /\
  (exists st, typing cv (Op KCmp None None [Var (FFP 32); Cst 0]) (fun _ => None) =
     Some (Op KCmp (Some (FInt 32 true)) None [Var (FFP 32); Cst 0], st) /\ st 0%nat = Some (FFP 32)).
Proof. intro z. split; [|split]; eexists; repeat split. Qed.

(* the choice between two conditions, the insertion of an exponent, the opposite of a
   constant and vectors *)
Theorem untyped_refuted : forall z,
  let cv := fun _ : nat => CInt z in let t := Op KBool None None [Var (FFP 32)] in
  let run e := typing cv e (fun _ => None) in
  run (Op KSelect None None [t; t; t]) = None /\
  (exists st, run (Op KExpIns None None [Var (FInt 32 true)]) = Some (Op KExpIns None None [Var (FInt 32 true)], st)) /\
  run (Op KArith None None [Op KExpIns None None [Var (FInt 32 true)]; Var (FFP 32)]) = None /\
  (exists st, run (Op KArith None None [Var (FVec 2 32); Var (FVec 2 32)]) = Some (Op KArith (Some (FFP 64)) None [Var (FVec 2 32); Var (FVec 2 32)], st)) /\
  run (Op KArith None None [Var (FVec 4 32); Var (FVec 4 32)]) = None.
Proof. intro z. cbv zeta. split; [reflexivity|]. split; [eexists; reflexivity|]. split; [reflexivity|]. split; [eexists; reflexivity|reflexivity]. Qed.

Print Assumptions typing_formats.
Print Assumptions merge_order.
Print Assumptions merged_exact.
Print Assumptions integer_format_contains.
Print Assumptions explicit_formats_kept.
Print Assumptions constant_fits_partial.
Print Assumptions constant_fits_refuted.
Print Assumptions shared_constant_refuted.
Print Assumptions constants_only_refuted.
Print Assumptions comparison_refuted.
Print Assumptions untyped_refuted.
