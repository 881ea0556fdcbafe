(* Correct rounding of the square root, and error of the reciprocal square
   root, in formats with bounded exponents. *)
From Coq Require Import ZArith QArith Qround Qabs List Bool Lia Lqa Setoid.
From Verif Require Import QUtil RoundSpec RoundProofs RoundRne SqrtModel SqrtSpec SqrtErr SqrtCore SqrtRange SqrtSeed.
From Verif Require DivProofs DivRange.
Import ListNotations.
Open Scope Z_scope.

(* a number as an even power of two times an integer *)
Lemma even_form : forall p em v, 2 <= p -> inF (mkF p (Some em)) v -> (0 < v)%Q -> (p2 (p + em + 2) <= v)%Q ->
  exists j M, (v == inject_Z M * p2 (2 * j + 1 - p))%Q /\ 2 ^ (p - 1) <= M <= 2 ^ (p + 1) - 2
    /\ (M < 2 ^ p \/ Z.even M = true) /\ qlog2 v / 2 = j.
Proof.
  intros p em v Hp Fv Pv Hlo. destruct (qlog2_spec v Pv) as [L1 L2]. set (e := qlog2 v) in *.
  set (j := e / 2). assert (Hj : 2 * j <= e <= 2 * j + 1).
  { unfold j. pose proof (Z.div_mod e 2 ltac:(lia)). pose proof (Z.mod_pos_bound e 2 ltac:(lia)). lia. }
  assert (Hp1 : 1 <= prec (mkF p (Some em))) by (cbn [prec]; lia).
  assert (Em : mult (e + 1 - p) v).
  { destruct (Qlt_le_dec (p2 e) v) as [L|L].
    - apply (inF_big _ Hp1); auto. cbn [prec]. replace (p + (e + 1 - p) - 1) with e by lia. rewrite Qabs_pos by lra. auto.
    - apply (mult_comp _ (p2 e)); [lra|]. apply mult_p2. lia. }
  destruct Em as [m Em].
  assert (Pp : 2 ^ (p + 1) = 4 * 2 ^ (p - 1)) by (replace (p + 1) with (2 + (p - 1)) by lia; rewrite Z.pow_add_r by lia; reflexivity).
  assert (Pp2 : 2 ^ p = 2 * 2 ^ (p - 1)) by (replace p with (1 + (p - 1)) at 1 by lia; rewrite Z.pow_add_r by lia; reflexivity).
  assert (Ppos : 0 < 2 ^ (p - 1)) by (apply Z.pow_pos_nonneg; lia).
  assert (Pe : (0 < p2 (e + 1 - p))%Q) by apply p2_pos.
  assert (B : 2 ^ (p - 1) <= m < 2 ^ p).
  { split.
    - assert (X : (inject_Z (2 ^ (p - 1)) * p2 (e + 1 - p) <= inject_Z m * p2 (e + 1 - p))%Q).
      { rewrite p2_prec by lia. replace (p - 1 + (e + 1 - p)) with e by lia. rewrite <- Em. auto. }
      apply Qmult_le_r in X; auto. rewrite <- Zle_Qle in X. auto.
    - assert (X : (inject_Z m * p2 (e + 1 - p) < inject_Z (2 ^ p) * p2 (e + 1 - p))%Q).
      { rewrite p2_prec by lia. replace (p + (e + 1 - p)) with (e + 1) by lia. rewrite <- Em. auto. }
      apply Qmult_lt_r in X; auto. rewrite <- Zlt_Qlt in X. auto. }
  exists j. destruct (Z.eq_dec e (2 * j)) as [E|N].
  - exists m. rewrite <- E. split; [exact Em|]. split; [lia|]. split; [left; lia|reflexivity].
  - assert (E : e = 2 * j + 1) by lia. exists (2 * m).
    split; [|split; [lia|split; [right; rewrite Z.even_mul; reflexivity|reflexivity]]].
    rewrite Em, E. replace (2 * j + 1 + 1 - p) with (2 * j + 1 - p + 1) by lia. rewrite p2_succ, inject_Z_mult. change (inject_Z 2) with 2%Q. ring.
Qed.

(* result of the computation at M 2^(2j+1-p) *)
Definition run (p : Z) (rnd : Q -> Q) (n : nat) (v : Q) : Q := compute_sqrt rnd v (invsqrt_seed rnd p v) n.

(* congruence *)
Section Comp.
Variables rnd rnd' : Q -> Q.
Hypothesis rnd_morph : forall x y, (x == y)%Q -> (rnd x == rnd' y)%Q.

Lemma iterations_comp : forall n y y' h h', (y == y')%Q -> (h == h')%Q ->
  (rsqrt_iterations rnd y h n == rsqrt_iterations rnd' y' h' n)%Q.
Proof.
  induction n as [|n IH]; intros y y' h h' Ey Eh; cbn [rsqrt_iterations]; auto.
  apply IH; auto. unfold rsqrt_iteration. cbv zeta.
  assert (E1 : (rnd (y * y) == rnd' (y' * y'))%Q) by (apply rnd_morph; rewrite Ey; reflexivity).
  assert (E2 : (rnd (- h * rnd (y * y) + (1 # 2)) == rnd' (- h' * rnd' (y' * y') + (1 # 2)))%Q) by (apply rnd_morph; rewrite E1, Eh; reflexivity).
  apply rnd_morph. rewrite E2, Ey. reflexivity.
Qed.

Lemma correction_comp : forall v v' h h' y y', (v == v')%Q -> (h == h')%Q -> (y == y')%Q ->
  (sqrt_correction rnd v h y == sqrt_correction rnd' v' h' y')%Q.
Proof.
  intros v v' h h' y y' Ev Eh Ey. unfold sqrt_correction. cbv zeta.
  set (s := rnd (v * y)). set (s' := rnd' (v' * y')). assert (Es : (s == s')%Q) by (apply rnd_morph; rewrite Ev, Ey; reflexivity).
  set (t5 := rnd (y * h)). set (t5' := rnd' (y' * h')). assert (E5 : (t5 == t5')%Q) by (apply rnd_morph; rewrite Eh, Ey; reflexivity).
  set (g := rnd ((1 # 2) * y)). set (g' := rnd' ((1 # 2) * y')). assert (Eg : (g == g')%Q) by (apply rnd_morph; rewrite Ey; reflexivity).
  clearbody s s' t5 t5' g g'.
  set (d := rnd (- s * s + v)). set (d' := rnd' (- s' * s' + v')). assert (Ed : (d == d')%Q) by (apply rnd_morph; rewrite Es, Ev; reflexivity).
  set (t6 := rnd (- t5 * y + (1 # 2))). set (t6' := rnd' (- t5' * y' + (1 # 2))). assert (E6 : (t6 == t6')%Q) by (apply rnd_morph; rewrite E5, Ey; reflexivity).
  clearbody d d' t6 t6'.
  set (s1 := rnd (d * g + s)). set (s1' := rnd' (d' * g' + s')). assert (Es1 : (s1 == s1')%Q) by (apply rnd_morph; rewrite Ed, Eg, Es; reflexivity).
  set (g1 := rnd (t6 * g + g)). set (g1' := rnd' (t6' * g' + g')). assert (Eg1 : (g1 == g1')%Q) by (apply rnd_morph; rewrite E6, Eg; reflexivity).
  clearbody s1 s1' g1 g1'.
  set (d1 := rnd (- s1 * s1 + v)). set (d1' := rnd' (- s1' * s1' + v')). assert (Ed1 : (d1 == d1')%Q) by (apply rnd_morph; rewrite Es1, Ev; reflexivity).
  clearbody d1 d1'.
  set (pr := rnd (d1 * g1 + s1)). set (pr' := rnd' (d1' * g1' + s1')). assert (Epr : (pr == pr')%Q) by (apply rnd_morph; rewrite Ed1, Eg1, Es1; reflexivity).
  clearbody pr pr'.
  assert (Edl : (rnd (- pr * pr + v) == rnd' (- pr' * pr' + v'))%Q) by (apply rnd_morph; rewrite Epr, Ev; reflexivity).
  apply rnd_morph. rewrite Edl, Eg1, Epr. reflexivity.
Qed.

Lemma seed_comp : forall p a b, (0 < a)%Q -> (a == b)%Q -> (invsqrt_seed rnd p a == invsqrt_seed rnd' p b)%Q.
Proof.
  intros p a b P E. unfold invsqrt_seed. cbv zeta. rewrite (qlog2_comp a b P E).
  assert (I : invsqrt_index a = invsqrt_index b).
  { unfold invsqrt_index. rewrite (qlog2_comp a b P E). apply Qfloor_comp. rewrite E. reflexivity. }
  rewrite I. set (t := nth _ _ _). clearbody t.
  match goal with |- context [(?a * p2 (Z.quot (- qlog2 b) 2))%Q] => set (c := a) end. clearbody c.
  assert (E2 : (rnd (c * p2 (Z.quot (- qlog2 b) 2)) == rnd' (c * p2 (Z.quot (- qlog2 b) 2)))%Q) by (apply rnd_morph; reflexivity).
  apply rnd_morph. rewrite E2. reflexivity.
Qed.

Lemma run_comp : forall p n a b, (0 < a)%Q -> (a == b)%Q -> (run p rnd n a == run p rnd' n b)%Q.
Proof.
  intros p n a b P E. unfold run, compute_sqrt. cbv zeta.
  assert (Eh : (rnd ((1 # 2) * a) == rnd' ((1 # 2) * b))%Q) by (apply rnd_morph; rewrite E; reflexivity).
  apply correction_comp; auto. apply iterations_comp; auto. apply seed_comp; auto.
Qed.

(* two iterations which lead back to where they started *)
Lemma iterations_app : forall m n y h, rsqrt_iterations rnd y h (m + n) = rsqrt_iterations rnd (rsqrt_iterations rnd y h m) h n.
Proof. induction m as [|m IH]; intros; cbn [rsqrt_iterations Nat.add]; auto. Qed.
End Comp.

(* the same computation with fractions kept small *)
Fixpoint strip (n d : positive) : positive * positive :=
  match n, d with
  | xO n', xO d' => strip n' d'
  | _, _ => (n, d)
  end.
Definition red2 (x : Q) : Q :=
  match Qnum x with
  | Z0 => 0%Q
  | Zpos n => let '(a, b) := strip n (Qden x) in Zpos a # b
  | Zneg n => let '(a, b) := strip n (Qden x) in Zneg a # b
  end.
Definition fast (F : fmt) (y : Q) : Q :=
  let x := red2 y in
  if Qeq_bool x 0 then 0%Q
  else let e := rexp F x in red2 (inject_Z (qrne (red2 (x / p2 e))) * p2 e).

Lemma strip_spec : forall n d, (fst (strip n d) * d = n * snd (strip n d))%positive.
Proof. induction n as [n IH|n IH|]; destruct d as [d|d|]; cbn [strip fst snd]; auto. specialize (IH d). lia. Qed.
Lemma red2_correct : forall x, (red2 x == x)%Q.
Proof.
  intros [n d]. unfold red2. cbn [Qnum Qden]. destruct n as [|n|n]; [reflexivity| |];
    pose proof (strip_spec n d) as H; destruct (strip n d) as [a b]; cbn [fst snd] in H; unfold Qeq; cbn [Qnum Qden]; lia.
Qed.

Lemma fast_morph : forall F, 1 <= prec F -> forall x y, (x == y)%Q -> (rne F x == fast F y)%Q.
Proof.
  intros F Hp x y E. rewrite (rnd_comp F _ (rne_nearest F Hp) x (red2 y)) by (rewrite red2_correct; exact E).
  unfold fast. cbv zeta. set (z := red2 y). clearbody z. unfold rne. destruct (Qeq_bool z 0); [reflexivity|].
  rewrite red2_correct. rewrite (QUtil.qrne_comp (red2 _) _ (red2_correct _)). reflexivity.
Qed.

Section Cycle.
Variables (F : fmt) (rnd : Q -> Q).
Hypothesis Hr : nearest_in F rnd.
Let morph := rnd_comp F rnd Hr.

Lemma iterations_cycle : forall h y, (rsqrt_iterations rnd y h 2 == y)%Q ->
  forall n, (rsqrt_iterations rnd y h n == y \/ rsqrt_iterations rnd y h n == rsqrt_iterations rnd y h 1)%Q.
Proof.
  intros h y C n. enough (H : forall m, (rsqrt_iterations rnd y h (2 * m) == y)%Q).
  { destruct (Nat.Even_or_Odd n) as [[m E]|[m E]]; rewrite E.
    - left. apply H.
    - right. replace (2 * m + 1)%nat with (2 * m + 1)%nat by reflexivity. rewrite iterations_app.
      apply (iterations_comp _ _ morph); [apply H|reflexivity]. }
  induction m as [|m IH]; [reflexivity|].
  replace (2 * S m)%nat with (2 + 2 * m)%nat by lia. rewrite iterations_app.
  rewrite (iterations_comp _ _ morph _ _ y h h C (Qeq_refl h)). exact IH.
Qed.
End Cycle.


(* the exceptional cases are correctly rounded *)
Definition hard_ok (p : Z) (rnd : Q -> Q) (j : Z) (n : nat) : Prop := forall M, In M (exceptions p) ->
  2 ^ (p - 1) <= M <= 2 ^ (p + 1) - 2 -> (M < 2 ^ p \/ Z.even M = true) ->
  exists k, (run p rnd n (inject_Z M * p2 (2 * j + 1 - p)) == inject_Z k * p2 (j + 1 - p))%Q /\ 2 ^ (p - 1) <= k <= 2 ^ p
    /\ (2 * k - 1) * (2 * k - 1) <= M * 2 ^ (p + 1) /\ M * 2 ^ (p + 1) <= (2 * k + 1) * (2 * k + 1).

Section Main.
Variables (p em : Z) (v : Q).
Notation F := (mkF p (Some em)).
Notation u := (p2 (- p)).
Hypothesis Hp : 12 <= p.
Hypothesis Hem : em + 2 * p + 5 <= 0.
Hypothesis Fv : inF F v.
Hypothesis Vlo : (p2 (em + 2 * p) <= v)%Q.
Hypothesis Vhi : (v <= p2 (- em - p + 3))%Q.

Let Pv : (0 < v)%Q. Proof. pose proof (p2_pos (em + 2 * p)). lra. Qed.

Section AnyRnd.
Variable rnd : Q -> Q.
Hypothesis Hr : nearest_in F rnd.
Let OkRel := ok_rel p em rnd Hp Hr.

Lemma main_seed : (0 < invsqrt_seed rnd p v)%Q /\ (Qabs (1 - v * invsqrt_seed rnd p v * invsqrt_seed rnd p v) <= (1 # 128) + 9 * u)%Q /\ inF F (invsqrt_seed rnd p v).
Proof.
  destruct (seed_error p v rnd (ok p em) Hp Pv OkRel (R3 p em Hp Hem v Vlo Vhi)) as (S1 & S2 & _).
  split; [exact S1|]. split; [exact S2|]. unfold invsqrt_seed. apply (rnd_inF F rnd Hr).
Qed.

(* the last operation rounds a number whose square is close to v *)
Theorem sqrt_before_rounding : forall n, (pw (1 # 128) n <= u)%Q ->
  exists w, (run p rnd n v == rnd w /\ 0 < w /\ Qabs (v - w * w) <= 20 * (u * u) * v)%Q.
Proof.
  intros n Hn. destruct main_seed as (S1 & S2 & S3). unfold run.
  pose proof (su12 p Hp) as U. pose proof (su0 p) as U0.
  destruct (chain_sqrt u v rnd (inF F) (ok p em) U0 U Pv (rnd_inF F rnd Hr) (rnd_comp F rnd Hr) OkRel (ok_comp p em)
    (R1 p em Hp Hem v Vlo) (R2 p em Hp v Fv Vlo) (R3 p em Hp Hem v Vlo Vhi) (R4 p em rnd Hp Hem Hr v Fv Vlo Vhi)
    (proj2 (R5 p em rnd Hp Hr v Fv Vlo)) rnd 0%Q 0 n (invsqrt_seed rnd p v) (1 # 128) S3 S1 ltac:(lra) ltac:(lra) S2 Hn) as (w & W1 & W2 & W3 & _).
  exists w. auto.
Qed.

Theorem isqrt_error : forall n,
  let r := compute_isqrt rnd v (invsqrt_seed rnd p v) n in
  (0 < r /\ Qabs (1 - v * r * r) <= pw (1 # 128) n + 9 * u)%Q.
Proof.
  intros n. destruct main_seed as (S1 & S2 & S3).
  pose proof (su12 p Hp) as U. pose proof (su0 p) as U0.
  destruct (chain_isqrt u v rnd (inF F) (ok p em) U0 U (rnd_inF F rnd Hr) OkRel (ok_comp p em)
    (R3 p em Hp Hem v Vlo Vhi) (R4 p em rnd Hp Hem Hr v Fv Vlo Vhi)
    (proj2 (R5 p em rnd Hp Hr v Fv Vlo)) rnd 0%Q 0 n (invsqrt_seed rnd p v) (1 # 128) S3 S1 ltac:(lra) ltac:(lra) S2) as (_ & W1 & W2).
  auto.
Qed.

Theorem isqrt_error_late : forall n, (v <= p2 (- em - p))%Q -> (pw (1 # 128) n + 9 * u <= 1 # 1024)%Q ->
  let r := compute_isqrt rnd v (invsqrt_seed rnd p v) (S n) in
  (Qabs (1 - v * r * r) <= (pw (1 # 128) n + 9 * u) * (pw (1 # 128) n + 9 * u) + (25 # 8) * u)%Q.
Proof.
  intros n Hv Hn. destruct main_seed as (S1 & S2 & S3).
  pose proof (su12 p Hp) as U. pose proof (su0 p) as U0.
  apply (chain_isqrt_late u v rnd (inF F) (ok p em) U0 U (rnd_inF F rnd Hr) OkRel (ok_comp p em)
    (R3 p em Hp Hem v Vlo Vhi) (R4 p em rnd Hp Hem Hr v Fv Vlo Vhi)
    (proj2 (R5 p em rnd Hp Hr v Fv Vlo)) rnd 0%Q 0 n (invsqrt_seed rnd p v) (1 # 128) (Rsq p em v Vlo Hv) S3 S1); auto; lra.
Qed.
End AnyRnd.

(* round to nearest even, after scaling by a power of four *)
Notation rb := (rne F).
Notation ri := (rne (mkF p None)).

Lemma rb_agree : forall x k x2, ok p em x -> (x == p2 k * x2)%Q -> (rb x == p2 k * ri x2)%Q.
Proof.
  intros x k x2 H E. rewrite (DivRange.rne_agree p em Hp x H).
  rewrite <- rne_inf_scale by lia. apply (rnd_comp _ _ (rne_nearest (mkF p None) ltac:(cbn [prec]; lia))). exact E.
Qed.

Lemma run_scale : forall n j v0, (v <= p2 (- em - p))%Q -> (v == p2 (2 * j) * v0)%Q -> (pw (1 # 128) n <= u)%Q ->
  (run p rb n v == p2 j * run p ri n v0)%Q.
Proof.
  intros n j v0 Hv Ev Hn. 
  assert (Hr : nearest_in F rb) by (apply rne_nearest; cbn [prec]; lia).
  assert (Hri : nearest_in (mkF p None) ri) by (apply rne_nearest; cbn [prec]; lia).
  destruct (main_seed rb Hr) as (S1 & S2 & S3). 
  pose proof (su12 p Hp) as U. pose proof (su0 p) as U0.
  destruct (chain_sqrt u v rb (inF F) (ok p em) U0 U Pv (rnd_inF F rb Hr) (rnd_comp F rb Hr) (ok_rel p em rb Hp Hr) (ok_comp p em)
    (R1 p em Hp Hem v Vlo) (R2 p em Hp v Fv Vlo) (R3 p em Hp Hem v Vlo Vhi) (R4 p em rb Hp Hem Hr v Fv Vlo Vhi)
    (proj2 (R5 p em rb Hp Hr v Fv Vlo)) ri v0 j n (invsqrt_seed rb p v) (1 # 128) S3 S1 ltac:(lra) ltac:(lra) S2 Hn) as (w & _ & _ & _ & W).
  unfold run. apply W.
  - apply (Rsq p em v Vlo Hv).
  - split; [apply rb_agree|exact Ev].
  - apply (seed_agree p v rb (ok p em) Hp Pv (ok_rel p em rb Hp Hr) (R3 p em Hp Hem v Vlo Vhi) ri v0 j rb_agree Ev).
  - assert (E : (v0 == p2 (- (2 * j)) * v)%Q).
    { rewrite Ev, Qmult_assoc, p2_opp. ring. }
    assert (Fh : inF F ((1 # 2) * v)) by (apply (R5 p em rb Hp Hr v Fv Vlo)).
    rewrite (rnd_comp _ _ Hri _ (p2 (- (2 * j)) * ((1 # 2) * v))) by (rewrite E; ring).
    rewrite rne_inf_scale by lia. rewrite (rnd_id _ _ Hri); [rewrite E; ring|].
    destruct Fh as (m & e & A & B & _). exists m, e. split; [exact A|]. split; [exact B|]. exact I.
Qed.

(* correct rounding, from the check of the exceptions: with unbounded
   exponents for most operands, in the format itself for the largest ones *)
Theorem sqrt_correctly_rounded : forall n, (v < p2 (- em - p + 3))%Q -> (pw (1 # 128) n <= u)%Q ->
  hard_ok p ri 0 n ->
  (forall j, - em - p <= 2 * j + 1 <= - em - p + 3 -> hard_ok p rb j n) ->
  sqrt_rn F v (run p rb n v).
Proof.
  intros n Vhi' Hn C1 C2.
  assert (Hr : nearest_in F rb) by (apply rne_nearest; cbn [prec]; lia).
  assert (Hri : nearest_in (mkF p None) ri) by (apply rne_nearest; cbn [prec]; lia).
  destruct (even_form p em v ltac:(lia) Fv Pv) as (j & M & Ev & HM & HE & Hj).
  { pose proof (p2_le (p + em + 2) (em + 2 * p) ltac:(lia)). lra. }
  destruct (qlog2_spec v Pv) as [L1 L2].
  assert (Hj' : 2 * j <= qlog2 v <= 2 * j + 1).
  { rewrite <- Hj. pose proof (Z.div_mod (qlog2 v) 2 ltac:(lia)). pose proof (Z.mod_pos_bound (qlog2 v) 2 ltac:(lia)). lia. }
  assert (Hq : em + 2 * p <= qlog2 v).
  { assert (em + 2 * p < qlog2 v + 1); [|lia]. apply p2_lt_inv. lra. }
  destruct (sqrt_before_rounding rb Hr n Hn) as (w & W1 & W2 & W3).
  assert (Hjp : exp_ok F (j - prec F)) by (unfold exp_ok; cbn [emin prec]; lia).
  assert (Rn : sqrt_rn F v (rb w)).
  { apply (hard_case F rb j M v w Hp Hr Hjp Ev HM W2 W3).
    intros nn c Hnn Hc Eq. cbn [prec] in *.
    pose proof (exceptions_complete p nn c M ltac:(lia) Hnn Hc Eq) as In.
    destruct (Qlt_le_dec (p2 (- em - p)) v) as [T|T].
    - assert (X : hard_ok p rb j n).
      { apply C2. split.
        - assert (- em - p < qlog2 v + 1) by (apply p2_lt_inv; lra). lia.
        - assert (qlog2 v < - em - p + 3) by (apply p2_lt_inv; lra). lia. }
      destruct (X M In HM HE) as (k & K1 & K2 & K3 & K4).
      apply (sqrt_rn_intro F j M v Hp Hjp Ev HM k); auto. cbn [prec].
      rewrite <- W1, <- K1. apply (run_comp rb rb (rnd_comp F rb Hr)); auto.
    - destruct (C1 M In HM HE) as (k & K1 & K2 & K3 & K4).
      apply (sqrt_rn_intro F j M v Hp Hjp Ev HM k); auto. cbn [prec].
      rewrite <- W1. rewrite (run_scale n j (inject_Z M * p2 (2 * 0 + 1 - p)) T); auto.
      + rewrite K1. replace (j + 1 - p) with (j + (0 + 1 - p)) by lia. rewrite (p2_plus j). ring.
      + rewrite Ev. replace (2 * j + 1 - p) with (2 * j + (2 * 0 + 1 - p)) by lia. rewrite (p2_plus (2 * j)). ring. }
  destruct Rn as (N1 & N2 & N3). split; [|split].
  - apply (inF_comp F (rb w)); [symmetry; auto|auto].
  - rewrite W1. auto.
  - intros f Hf f0. destruct (N3 f Hf f0) as [A B]. split; intros L; rewrite W1 in *; auto.
Qed.
End Main.
