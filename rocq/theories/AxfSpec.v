(* What reading back an approximation file should give, said apart from the
   functions of AxfModel.v: an object with the same fields, the coefficients of
   each polynomial listed by increasing degree. *)
From Coq Require Import ZArith List String Ascii Permutation Sorted.
From Verif Require Import AxfModel.
Import ListNotations.

(* values that JSON keeps as they are *)
Definition atom (v : py) : Prop := match v with PList _ | PDict _ => False | _ => True end.

Definition by_degree {A} (p q : list (Z * A)) : Prop :=
  Permutation p q /\ StronglySorted (fun a b => (fst a < fst b)%Z) q.
Definition degrees_differ {A} (p : list (Z * A)) : Prop := NoDup (map fst p).

(* objects as the classes hold them *)
Definition spa_ok (a : axspa) : Prop := degrees_differ (a_poly a) /\ atom (xe_type (a_err a)) /\ atom (a_tag a).
Definition ax_ok (x : axobj) : Prop :=
  match x with
  | XSpa a => spa_ok a
  | XUpwa u => Forall spa_ok (u_list u) /\ atom (xe_type (u_err u)) /\ atom (u_tag u)
  | XGps g => Forall spa_ok (g_list g) /\ atom (xe_type (g_err g)) /\ atom (g_tag g) /\ atom (g_odd g) /\ atom (g_even g)
  end.

Definition spa_same (a b : axspa) : Prop :=
  by_degree (a_poly a) (a_poly b) /\ a_fct b = a_fct a /\ a_degs b = a_degs a /\ a_fmts b = a_fmts a /\
  a_itv b = a_itv a /\ a_err b = a_err a /\ a_tag b = a_tag a.
Definition ax_same (x y : axobj) : Prop :=
  match x, y with
  | XSpa a, XSpa b => spa_same a b
  | XUpwa u, XUpwa v =>
      Forall2 spa_same (u_list u) (u_list v) /\ u_fct v = u_fct u /\ u_itv v = u_itv u /\ u_idx v = u_idx u /\
      u_num v = u_num u /\ u_maxd v = u_maxd u /\ u_err v = u_err u /\ u_odd v = u_odd u /\ u_even v = u_even u /\
      u_prec v = u_prec u /\ u_tag v = u_tag u
  | XGps g, XGps h =>
      Forall2 spa_same (g_list g) (g_list h) /\ g_off h = g_off g /\ g_idx h = g_idx g /\ g_itv h = g_itv g /\
      g_err h = g_err g /\ g_prec h = g_prec g /\ g_tag h = g_tag g /\ g_maxd h = g_maxd g /\ g_odd h = g_odd g /\ g_even h = g_even g
  | _, _ => False
  end.

(* formats whose printed name is read back as themselves *)
Definition readable (f : fmt) : Prop :=
  match f with Half | Single | Double | Fixed _ _ _ => True | _ => False end.
Definition readable_p (p : pformat) : Prop := match p with PF f => readable f | PNum _ => False end.

Fixpoint lacks (c : ascii) (s : string) : Prop :=
  match s with EmptyString => True | String a t => a <> c /\ lacks c t end.

(* approximations of the library up to the order of coefficients *)
Definition mlspa_same {V} (a b : mlspa V) : Prop :=
  by_degree (s_poly _ a) (s_poly _ b) /\ s_fct _ b = s_fct _ a /\ s_degs _ b = s_degs _ a /\ s_fmts _ b = s_fmts _ a /\
  s_itv _ b = s_itv _ a /\ s_err _ b = s_err _ a.
