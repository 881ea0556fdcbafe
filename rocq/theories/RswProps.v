(* Hardware formats turned into software ones, formats of pointers: what holds, and what is wrong. *)
From Coq Require Import List Arith Bool ZArith String Lia.
From Verif Require Import TravModel TravSpec TravProofs RswModel RswSpec.
Import ListNotations.

Lemma legalize_twice : forall f, legalize (legalize f) = legalize f. Proof. intros []; reflexivity. Qed.
Lemma legalize_table : forall f t, legalize f = Tbl t <-> f = Tbl t. Proof. intros f t; destruct f; cbn; unfold sw_std_logic; split; congruence. Qed.
Lemma act_ok : forall n s, exists s', sw_act n s = Some s' /\ (forall m, node_fmt s' m = if Nat.eqb m n then legalize (node_fmt s m) else node_fmt s m) /\
  (forall t, node_fmt s n = Tbl t -> storage s' t = legalize (storage s t)) /\ (forall t, node_fmt s n <> Tbl t -> storage s' t = storage s t).
Proof.
  intros n s. unfold sw_act. destruct (node_fmt s n) as [|z|i q b|i q b| |z|z|t|k|] eqn:F; eexists; (split; [reflexivity|]); cbn [node_fmt storage];
    (split; [intro m; destruct (Nat.eqb_spec m n) as [->|N]; [rewrite F|]; reflexivity|]);
    (split; [intros u U; try discriminate U; injection U as <-; now rewrite Nat.eqb_refl|intros u U; try reflexivity]).
  destruct (Nat.eqb_spec u t) as [->|N]; [congruence|reflexivity].
Qed.
Lemma fold_ok : forall l s, NoDup l -> exists s', fold_act state sw_act l s = Some s' /\ (forall m, ~ In m l -> node_fmt s' m = node_fmt s m) /\
  (forall m, In m l -> node_fmt s' m = legalize (node_fmt s m)) /\
  (forall t m, In m l -> node_fmt s m = Tbl t -> storage s' t = legalize (storage s t)) /\
  (forall t, (forall m, In m l -> node_fmt s m <> Tbl t) -> storage s' t = storage s t).
Proof.
  induction l as [|n q IH]; intros s ND; cbn [fold_act].
  - exists s. split; [reflexivity|]. split; [reflexivity|]. split; [intros m []|]. split; [intros t m []|reflexivity].
  - inversion ND as [|? ? NI NQ]; subst. destruct (act_ok n s) as (s1 & E & A & B & C). rewrite E. destruct (IH s1 NQ) as (s' & F & D & G & H & K). exists s'. split; [exact F|].
    assert (OT : forall m, In m q -> node_fmt s1 m = node_fmt s m) by (intros m I; rewrite A; destruct (Nat.eqb_spec m n) as [->|N]; [contradiction|reflexivity]).
    assert (ST : forall t, storage s1 t = storage s t \/ storage s1 t = legalize (storage s t)).
    { intro t. assert (X : node_fmt s n = Tbl t \/ node_fmt s n <> Tbl t) by (destruct (node_fmt s n) as [| | | | | | |u| |]; try (right; discriminate); destruct (Nat.eq_dec u t) as [->|N]; [now left|right; congruence]). destruct X as [X|X]; [right; now apply B|left; now apply C]. }
    split; [|split; [|split]].
    + intros m N. rewrite D by (intro; apply N; now right). rewrite A. destruct (Nat.eqb_spec m n) as [->|_]; [exfalso; apply N; now left|reflexivity].
    + intros m [<-|I]; [rewrite D by exact NI; rewrite A; now rewrite Nat.eqb_refl|]. rewrite G by exact I. now rewrite OT.
    + intros t m I T.
      assert (X : (exists k, In k q /\ node_fmt s k = Tbl t) \/ (forall k, In k q -> node_fmt s k <> Tbl t)).
      { clear. induction q as [|k q IH]; [right; intros k []|]. destruct IH as [(j & J & T)|N]; [left; exists j; split; [now right|exact T]|].
        assert (X : node_fmt s k = Tbl t \/ node_fmt s k <> Tbl t) by (destruct (node_fmt s k) as [| | | | | | |u| |]; try (right; discriminate); destruct (Nat.eq_dec u t) as [->|N']; [now left|right; congruence]).
        destruct X as [X|X]; [left; exists k; split; [now left|exact X]|right; intros j [<-|J]; [exact X|now apply N]]. }
      destruct X as [(k & J & T')|N].
      * rewrite (H t k J) by (now rewrite OT). destruct (ST t) as [->| ->]; [reflexivity|apply legalize_twice].
      * rewrite K by (intros j J; rewrite OT by exact J; now apply N). destruct I as [<-|I]; [now apply B|]. exfalso. exact (N m I T).
    + intros t N. rewrite K by (intros j J; rewrite OT by exact J; apply N; now right). apply C. apply N. now left.
Qed.

(* the pass ends on any graph and gives each node reached through inputs its software format, each table format met
   its software storage; the other nodes and tables are kept *)
Theorem formats_translated : forall inputs n s, acyclic inputs -> exists memo s', rtl_to_sw inputs n s = Some (memo, s') /\
  (forall m, reach inputs n m -> node_fmt s' m = match node_fmt s m with StdLogic => Sw 1 0 false | Slv z => Sw z 0 false | Rtl i q b => Sw i q b | f => f end) /\
  (forall m, ~ reach inputs n m -> node_fmt s' m = node_fmt s m) /\
  (forall t m, reach inputs n m -> node_fmt s m = Tbl t -> storage s' t = match storage s t with StdLogic => Sw 1 0 false | Slv z => Sw z 0 false | Rtl i q b => Sw i q b | f => f end) /\
  (forall t, (forall m, reach inputs n m -> node_fmt s m <> Tbl t) -> storage s' t = storage s t).
Proof.
  intros inputs n s AC. destruct (traverse_fresh inputs AC state sw_act false n) as (memo & new & F & ND & R). destruct (fold_ok new s ND) as (s' & E & A & B & C & D).
  exists memo, s'. unfold rtl_to_sw. rewrite F, E. split; [reflexivity|]. split; [intros m M; rewrite B by (now apply R); destruct (node_fmt s m); reflexivity|].
  split; [intros m M; apply A; intro X; apply M; now apply R|]. split.
  - intros t m M T. rewrite (C t m) by (try exact T; now apply R). destruct (storage s t); reflexivity.
  - intros t N. apply D. intros m M. apply N. now apply R.
Qed.

(* the value of any code is kept, and a second run does nothing *)
Theorem codes_kept : forall inputs n s memo s', acyclic inputs -> rtl_to_sw inputs n s = Some (memo, s') ->
  (forall m c, decode (node_fmt s' m) c = decode (node_fmt s m) c) /\ (forall t c, decode (storage s' t) c = decode (storage s t) c) /\
  exists memo2 s2, rtl_to_sw inputs n s' = Some (memo2, s2) /\ (forall m, node_fmt s2 m = node_fmt s' m) /\ (forall t, storage s2 t = storage s' t).
Proof.
  intros inputs n s memo s' AC H. destruct (traverse_fresh inputs AC state sw_act false n) as (memo0 & new & F & ND & R).
  assert (DEC : forall f c, decode (legalize f) c = decode f c) by (intros [] c; unfold decode; cbn [legalize sw_std_logic layout]; rewrite ?Z.add_0_r; reflexivity).
  assert (IN : forall m, In m new \/ ~ In m new) by (intro m; destruct (in_dec Nat.eq_dec m new); [now left|now right]).
  assert (TB : forall s0 t, (exists m, In m new /\ node_fmt s0 m = Tbl t) \/ (forall m, In m new -> node_fmt s0 m <> Tbl t)).
  { intros s0 t. clear. induction new as [|k q IH]; [right; intros k []|]. destruct IH as [(j & J & T)|N]; [left; exists j; split; [now right|exact T]|].
    assert (X : node_fmt s0 k = Tbl t \/ node_fmt s0 k <> Tbl t) by (destruct (node_fmt s0 k) as [| | | | | | |u| |]; try (right; discriminate); destruct (Nat.eq_dec u t) as [->|N']; [now left|right; congruence]).
    destruct X as [X|X]; [left; exists k; split; [now left|exact X]|right; intros j [<-|J]; [exact X|now apply N]]. }
  destruct (fold_ok new s ND) as (s1 & E & A & B & C & D). unfold rtl_to_sw in H. rewrite F, E in H. injection H as <- <-. split; [|split].
  - intros m c. destruct (IN m) as [I|I]; [rewrite (B m I); apply DEC|now rewrite (A m I)].
  - intros t c. destruct (TB s t) as [(m & I & T)|N]; [rewrite (C t m I T); apply DEC|now rewrite (D t N)].
  - destruct (fold_ok new s1 ND) as (s2 & E2 & A2 & B2 & C2 & D2). exists memo0, s2. unfold rtl_to_sw. rewrite F, E2. split; [reflexivity|]. split.
    + intro m. destruct (IN m) as [I|I]; [rewrite (B2 m I), (B m I); apply legalize_twice|exact (A2 m I)].
    + intro t. destruct (TB s1 t) as [(m & I & T)|N]; [|exact (D2 t N)]. rewrite (C2 t m I T). rewrite (B m I) in T. apply (proj1 (legalize_table _ _)) in T. rewrite (C t m I T). apply legalize_twice.
Qed.

(* no hardware format is left below inputs, if there are no unevaluated, signed or unsigned vectors *)
Theorem no_hardware : forall inputs n s memo s' m, acyclic inputs -> rtl_to_sw inputs n s = Some (memo, s') -> reach inputs n m -> resolved (node_fmt s m) ->
  hardware (node_fmt s' m) = false.
Proof.
  intros inputs n s memo s' m AC H R RS. destruct (formats_translated inputs n s AC) as (memo1 & s1 & E & A & _). rewrite H in E. injection E as <- <-. rewrite (A m R).
  destruct (node_fmt s m); try contradiction RS; reflexivity.
Qed.

(* ---- what is wrong ---- *)
(* vectors of an unevaluated size and numeric vectors keep their hardware format *)
Theorem vectors_refuted : forall inputs n s memo s' m, acyclic inputs -> rtl_to_sw inputs n s = Some (memo, s') -> ~ resolved (node_fmt s m) ->
  node_fmt s' m = node_fmt s m /\ hardware (node_fmt s' m) = true.
Proof.
  intros inputs n s memo s' m AC H RS. assert (X : node_fmt s' m = node_fmt s m).
  { destruct (traverse_fresh inputs AC state sw_act false n) as (memo0 & new & F & ND & R). destruct (fold_ok new s ND) as (s1 & E & A & B & _). unfold rtl_to_sw in H. rewrite F, E in H. injection H as <- <-.
    destruct (in_dec Nat.eq_dec m new) as [I|I]; [rewrite (B m I)|exact (A m I)]. destruct (node_fmt s m); cbn in RS; tauto. }
  split; [exact X|]. rewrite X. destruct (node_fmt s m); cbn in RS; tauto.
Qed.
(* only inputs are looked at: what is in the pre-statement of a condition or in a case of a switch keeps its hardware
   format when it is not below inputs too *)
Theorem unvisited_formats_refuted : forall inputs extra n s memo s' m, acyclic inputs -> rtl_to_sw inputs n s = Some (memo, s') ->
  In m (extra n) -> ~ reach inputs n m -> hardware (node_fmt s m) = true -> hardware (node_fmt s' m) = true.
Proof.
  intros inputs extra n s memo s' m AC H _ R W. destruct (formats_translated inputs n s AC) as (memo1 & s1 & E & _ & B & _). rewrite H in E. injection E as <- <-. now rewrite (B m R).
Qed.
(* the storage is changed in the format object: a table out of the graph with the same object changes too *)
Theorem shared_table_refuted : forall inputs n s memo s' m k t z, acyclic inputs -> rtl_to_sw inputs n s = Some (memo, s') ->
  reach inputs n m -> ~ reach inputs n k -> node_fmt s m = Tbl t -> node_fmt s k = Tbl t -> storage s t = Slv z ->
  node_fmt s' k = Tbl t /\ storage s' t = Sw z 0 false.
Proof.
  intros inputs n s memo s' m k t z AC H R NR M K S. destruct (formats_translated inputs n s AC) as (memo1 & s1 & E & _ & B & C & _). rewrite H in E. injection E as <- <-.
  split; [rewrite (B k NR); exact K|]. rewrite (C t m R M), S. reflexivity.
Qed.
(* a format of more than 128 bits has no C type *)
Theorem c_type_exact : forall i q b, (exists n, c_size (Sw i q b) = Some n) <-> (1 <= i + q <= 128)%Z.
Proof.
  intros i q b. cbn [c_size]. split.
  - intros [n H]. destruct (Z.ltb_spec (i + q) 1); cbn [orb] in H; [discriminate H|]. destruct (Z.ltb_spec 128 (i + q)); [discriminate H|]. lia.
  - intros [L H]. destruct (Z.ltb_spec (i + q) 1); [lia|]. destruct (Z.ltb_spec 128 (i + q)); [lia|]. cbn [orb].
    destruct (i + q <=? 8)%Z; [eauto|]. destruct (i + q <=? 16)%Z; [eauto|]. destruct (i + q <=? 32)%Z; [eauto|]. destruct (i + q <=? 64)%Z; eauto.
Qed.
Theorem c_type_smallest : forall i q b n, c_size (Sw i q b) = Some n -> In n [8; 16; 32; 64; 128]%Z /\ (i + q <= n)%Z /\ forall k, In k [8; 16; 32; 64; 128]%Z -> (i + q <= k)%Z -> (n <= k)%Z.
Proof.
  intros i q b n H. cbn [c_size] in H. destruct (Z.ltb_spec (i + q) 1); cbn [orb] in H; [discriminate H|]. destruct (Z.ltb_spec 128 (i + q)); [discriminate H|].
  destruct (Z.leb_spec (i + q) 8); [injection H as <-; cbn; split; [tauto|]; split; [lia|]; intros k K L; lia|].
  destruct (Z.leb_spec (i + q) 16); [injection H as <-; cbn; split; [tauto|]; split; [lia|]; intros k K L; lia|].
  destruct (Z.leb_spec (i + q) 32); [injection H as <-; cbn; split; [tauto|]; split; [lia|]; intros k K L; lia|].
  destruct (Z.leb_spec (i + q) 64); [injection H as <-; cbn; split; [tauto|]; split; [lia|]; intros k K L; lia|].
  injection H as <-; cbn; split; [tauto|]; split; [lia|]; intros k K L; lia.
Qed.

(* ---- formats of pointers ---- *)
Lemma py_eq_sym : forall n a b, py_eq n a b = py_eq n b a.
Proof. induction n as [|n IH]; intros a b; [reflexivity|]. destruct a as [i x|i d|l d], b as [j y|j e|k e]; cbn [py_eq]; try reflexivity; try apply Nat.eqb_sym. apply IH. Qed.
Lemma py_eq_fuel : forall n m a b, depth a + depth b <= n -> depth a + depth b <= m -> py_eq n a b = py_eq m a b.
Proof.
  induction n as [|n IH]; intros m a b N M; [destruct a; cbn in N; lia|]. destruct m as [|m]; [destruct a; cbn in M; lia|].
  destruct a as [i x|i d|l d], b as [j y|j e|k e]; cbn [py_eq depth] in *; try reflexivity; apply IH; lia.
Qed.
(* equality of formats can be asked either way, any format is equal to itself, and a pointer is equal to a pointer or a table
   when what they point to is *)
Theorem pointer_equality : (forall a b, fmt_eq a b = fmt_eq b a) /\ (forall a, fmt_eq a a = true) /\
  (forall l k d e, fmt_eq (Ptr l d) (Ptr k e) = fmt_eq d e) /\ (forall l i d e, fmt_eq (Ptr l d) (Tab i e) = fmt_eq d e) /\ (forall l d n s, fmt_eq (Ptr l d) (Base n s) = false).
Proof.
  split; [intros a b; unfold fmt_eq; rewrite py_eq_sym; now rewrite Nat.add_comm|]. split.
  - intro a. unfold fmt_eq. induction a as [n s|i d IH|l d IH]; cbn [depth].
    + cbn. apply Nat.eqb_refl.
    + cbn. apply Nat.eqb_refl.
    + cbn [Nat.add py_eq]. rewrite <- IH. apply py_eq_fuel; lia.
  - split; [|split]; intros; unfold fmt_eq; cbn [depth Nat.add py_eq]; [apply py_eq_fuel; lia|apply py_eq_fuel; lia|reflexivity].
Qed.
(* two tables are equal to one pointer and not to each other *)
Theorem equality_transitive_refuted : forall l d i j, i <> j -> fmt_eq (Tab i d) (Ptr l d) = true /\ fmt_eq (Ptr l d) (Tab j d) = true /\ fmt_eq (Tab i d) (Tab j d) = false.
Proof.
  intros l d i j N. destruct pointer_equality as (S & R & _ & T & _). split; [rewrite S, T; apply R|]. split; [rewrite T; apply R|]. unfold fmt_eq. cbn [depth Nat.add py_eq]. now apply Nat.eqb_neq.
Qed.
(* attributes are in the name of a pointer format and not in its equality *)
Lemma length_app : forall a b, String.length (a ++ b)%string = String.length a + String.length b.
Proof. induction a as [|c a IH]; intro b; [reflexivity|]. cbn [String.append String.length]. now rewrite IH. Qed.
Lemma concat_long : forall l s x, String.length (String.concat " " (List.app (x :: l) [s])) > String.length s.
Proof.
  induction l as [|y l IH]; intros s x; cbn [List.app].
  - cbn [String.concat]. rewrite !length_app. cbn. lia.
  - change (String.concat " " (x :: y :: List.app l [s])) with (x ++ " " ++ String.concat " " (y :: List.app l [s]))%string. rewrite !length_app. specialize (IH s y). cbn [List.app] in IH. lia.
Qed.
Theorem attributes_refuted : forall x l d, fmt_eq (Ptr (x :: l) d) (Ptr [] d) = true /\ pname (Ptr (x :: l) d) <> pname (Ptr [] d).
Proof.
  intros x l d. destruct pointer_equality as (_ & R & P & _). split; [rewrite P; apply R|]. intro E. apply (f_equal String.length) in E. cbn [pname] in E. rewrite !length_app in E.
  pose proof (concat_long l (pname d) x) as G. change (String.concat " " (List.app [] [pname d])) with (pname d) in E. lia.
Qed.

(* ---- examples ---- *)
Definition g (n : nat) : list nat := match n with 3 => [1; 2] | 1 => [0] | 2 => [0] | _ => [] end.
Definition s0 : state := mkS (fun n => match n with 0 => StdLogic | 1 => Slv 17 | 2 => Tbl 0 | 3 => Rtl 3 5 true | _ => Slv 2 end) (fun t => Rtl 0 8 false).
Example g_acyclic : acyclic g.
Proof. intros [|[|[|[|n]]]] c H; cbn in H; intuition lia. Qed.
Example g_run : exists memo s', rtl_to_sw g 3 s0 = Some (memo, s') /\ memo = [3; 2; 1; 0] /\
  map (node_fmt s') [0; 1; 2; 3; 4] = [Sw 1 0 false; Sw 17 0 false; Tbl 0; Sw 3 5 true; Slv 2] /\ storage s' 0 = Sw 0 8 false.
Proof. eexists. eexists. split; [reflexivity|]. repeat split. Qed.
Example wide_type : c_size (legalize (Slv 129)) = None /\ c_size (legalize (Slv 128)) = Some 128%Z /\ c_size (legalize (Rtl 3 5 true)) = Some 8%Z.
Proof. repeat split. Qed.
Example const_float : pname (Ptr ["const"%string] (Base 0 "float")) = "const float*"%string.
Proof. reflexivity. Qed.
Example signed_code : decode (Rtl 3 5 true) 255 = Some ((-1)%Z, 5%Z) /\ decode (legalize (Rtl 3 5 true)) 255 = Some ((-1)%Z, 5%Z).
Proof. split; reflexivity. Qed.

Print Assumptions formats_translated.
Print Assumptions codes_kept.
Print Assumptions no_hardware.
Print Assumptions vectors_refuted.
Print Assumptions unvisited_formats_refuted.
Print Assumptions shared_table_refuted.
Print Assumptions c_type_exact.
Print Assumptions c_type_smallest.
Print Assumptions pointer_equality.
Print Assumptions equality_transitive_refuted.
Print Assumptions attributes_refuted.
