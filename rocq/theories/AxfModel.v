(* Approximation files.  Model of metalibm_core/utility/axf_utils.py:56-292
   (classes), 293-481 (serialization), 525-557 (JSON files), of
   precision_parser (metalibm_core/utility/ml_template.py:80-164), of the
   printed forms of the indexing classes and Indexing.parse
   (metalibm_core/core/indexing.py:59-61, 138-143, 207-218).

   Python values are a small inductive type.  json.dumps(sort_keys=True) followed
   by json.loads is modelled on values: entries sorted by key, integer keys
   turned into strings, mixed keys refused (TypeError); the text itself is not.
   Sollya objects are an abstract type V with str (show) and sollya.parse
   (sparse), which answers its error object instead of raising.  Simplifications:
   str() of a list or dictionary and iteration over anything but a list are not
   modelled (EModel); int() of a string reads decimal integers only; the YAML
   half of the file is not modelled. *)
From Coq Require Import ZArith List Bool String Ascii DecimalString Decimal DecimalZ.
Import ListNotations.
Open Scope string_scope.

Inductive exn := EKey | EType | EValue | EAssert | EAttribute | ENameErr | ENotImplemented | EUnknownClass | EParse | EModel.
Inductive res (A : Type) := Ok (a : A) | Raise (e : exn).
Arguments Ok {A} a.
Arguments Raise {A} e.
Definition bind {A B} (r : res A) (f : A -> res B) : res B := match r with Ok a => f a | Raise e => Raise e end.
Notation "'do' x <- r ; s" := (bind r (fun x => s)) (at level 200, x name, right associativity).

Fixpoint mapM {A B} (f : A -> res B) (l : list A) : res (list B) :=
  match l with
  | [] => Ok []
  | a :: t => do b <- f a; do r <- mapM f t; Ok (b :: r)
  end.

(* ------------------------------------------------------------------ *)
(* Python values                                                        *)
(* ------------------------------------------------------------------ *)
Inductive key := KS (s : string) | KI (z : Z).
Inductive py :=
| PStr (s : string) | PInt (z : Z) | PBool (b : bool) | PNone
| PList (l : list py)
| PDict (l : list (key * py)).

Definition dec (z : Z) : string := NilZero.string_of_int (Z.to_int z).
Definition undec (s : string) : option Z := option_map Z.of_int (NilZero.int_of_string s).

(* str(v) *)
Definition to_str (v : py) : res string :=
  match v with
  | PStr s => Ok s
  | PInt z => Ok (dec z)
  | PBool b => Ok (if b then "True" else "False")
  | PNone => Ok "None"
  | _ => Raise EModel
  end.
(* int(v) *)
Definition to_int (v : py) : res Z :=
  match v with
  | PInt z => Ok z
  | PBool b => Ok (if b then 1%Z else 0%Z)
  | PStr s => match undec s with Some z => Ok z | None => Raise EValue end
  | _ => Raise EType
  end.
(* bool(v) *)
Definition to_bool (v : py) : bool :=
  match v with
  | PStr s => negb (String.eqb s "")
  | PInt z => negb (Z.eqb z 0)
  | PBool b => b
  | PNone => false
  | PList l => match l with [] => false | _ => true end
  | PDict l => match l with [] => false | _ => true end
  end.
(* [... for x in v] *)
Definition to_list (v : py) : res (list py) := match v with PList l => Ok l | _ => Raise EModel end.
(* v.items() *)
Definition to_items (v : py) : res (list (key * py)) := match v with PDict l => Ok l | _ => Raise EAttribute end.

Definition key_eqb (a b : key) : bool :=
  match a, b with KS x, KS y => String.eqb x y | KI x, KI y => Z.eqb x y | _, _ => false end.
Fixpoint dget (l : list (key * py)) (k : key) : option py :=
  match l with [] => None | (x, v) :: t => if key_eqb x k then Some v else dget t k end.
(* d["k"] *)
Definition field (d : py) (k : string) : res py :=
  match d with
  | PDict l => match dget l (KS k) with Some v => Ok v | None => Raise EKey end
  | _ => Raise EType
  end.
(* "k" in d *)
Definition has (d : py) (k : string) : bool :=
  match d with PDict l => match dget l (KS k) with Some _ => true | None => false end | _ => false end.

(* dictionary comprehension: a later key replaces the value, keeping its place *)
Fixpoint zset {A} (k : Z) (v : A) (l : list (Z * A)) : list (Z * A) :=
  match l with
  | [] => [(k, v)]
  | (x, a) :: t => if Z.eqb x k then (x, v) :: t else (x, a) :: zset k v t
  end.
Definition zdict {A} (l : list (Z * A)) : list (Z * A) := fold_left (fun d kv => zset (fst kv) (snd kv) d) l [].

(* ------------------------------------------------------------------ *)
(* json.loads(json.dumps(v, sort_keys=True))                            *)
(* ------------------------------------------------------------------ *)
Definition key_leb (a b : key) : bool :=
  match a, b with
  | KS x, KS y => String.leb x y
  | KI x, KI y => Z.leb x y
  | _, _ => true
  end.
Definition same_sort (a b : key) : bool :=
  match a, b with KS _, KS _ => true | KI _, KI _ => true | _, _ => false end.
Fixpoint insert {A} (e : key * A) (l : list (key * A)) : list (key * A) :=
  match l with
  | [] => [e]
  | x :: t => if key_leb (fst e) (fst x) then e :: x :: t else x :: insert e t
  end.
Fixpoint isort {A} (l : list (key * A)) : list (key * A) :=
  match l with [] => [] | e :: t => insert e (isort t) end.
Definition key_str (k : key) : key := match k with KS s => KS s | KI z => KS (dec z) end.
Definition comparable {A} (l : list (key * A)) : bool :=
  match l with [] => true | (k, _) :: t => forallb (fun e => same_sort k (fst e)) t end.

Fixpoint json_io (v : py) : res py :=
  match v with
  | PList l => do l' <- (fix go (l : list py) := match l with [] => Ok [] | a :: t => do b <- json_io a; do r <- go t; Ok (b :: r) end) l; Ok (PList l')
  | PDict l =>
    do l' <- (fix go (l : list (key * py)) :=
                match l with [] => Ok [] | (k, a) :: t => do b <- json_io a; do r <- go t; Ok ((k, b) :: r) end) l;
    if comparable l' then Ok (PDict (map (fun e => (key_str (fst e), snd e)) (isort l'))) else Raise EType
  | _ => Ok v
  end.

(* ------------------------------------------------------------------ *)
(* AXF classes                                                          *)
(* ------------------------------------------------------------------ *)
(* 130-154 *)
Record axerr := Axerr { xe_type : py; xe_value : string }.
Definition err_ser (e : axerr) : py := PDict [(KS "type", xe_type e); (KS "value", PStr (xe_value e))].
Definition err_des (d : py) : res axerr :=
  do t <- field d "type"; do v <- field d "value"; do s <- to_str v; Ok (Axerr t s).

(* 269-290 *)
Definition axpoly := list (Z * string).
Definition poly_ser (p : axpoly) : py := PDict (map (fun kv => (KI (fst kv), PStr (snd kv))) p).
Definition poly_des (d : py) : res axpoly :=
  do l <- to_items d;
  do e <- mapM (fun kv => do k <- to_int (match fst kv with KS s => PStr s | KI z => PInt z end); Ok (k, snd kv)) l;
  (* AXF_Polynomial.__init__ *)
  mapM (fun kv => do s <- to_str (snd kv); Ok (fst kv, s)) (zdict e).

(* 195-266 *)
Record axspa := Axspa { a_poly : axpoly; a_fct : string; a_degs : list Z; a_fmts : list string; a_itv : string;
                        a_err : axerr; a_tag : py }.
Definition spa_class := "!SimplePolyApprox".
Definition is_empty_str (v : py) : bool := match v with PStr s => String.eqb s "" | _ => false end.
Definition spa_ser (a : axspa) : py :=
  PDict ([(KS "class", PStr spa_class); (KS "function", PStr (a_fct a));
          (KS "approx_params", PDict [(KS "degree_list", PList (map PInt (a_degs a)));
                                      (KS "format_list", PList (map PStr (a_fmts a)))]);
          (KS "interval", PStr (a_itv a)); (KS "approx_data", poly_ser (a_poly a));
          (KS "approx_error", err_ser (a_err a))]
         ++ if is_empty_str (a_tag a) then [] else [(KS "tag", a_tag a)])%list.
Definition spa_des (d : py) : res axspa :=
  do pd <- field d "approx_data"; do p <- poly_des pd;
  do f <- field d "function";
  do pr <- field d "approx_params"; do dl <- field pr "degree_list"; do fl <- field pr "format_list";
  do i <- field d "interval"; do ed <- field d "approx_error"; do e <- err_des ed;
  do tag <- (if has d "tag" then field d "tag" else Ok (PStr ""));
  (* AXF_SimplePolyApprox.__init__ *)
  do fs <- to_str f; do dl' <- to_list dl; do degs <- mapM to_int dl'; do fl' <- to_list fl; do fmts <- mapM to_str fl';
  do is <- to_str i; Ok (Axspa p fs degs fmts is e tag).

(* 293-389 *)
Record axupwa := Axupwa { u_fct : string; u_itv : string; u_idx : string; u_num : Z; u_maxd : Z; u_err : axerr;
                          u_odd : bool; u_even : bool; u_list : list axspa; u_prec : string; u_tag : py }.
Definition upwa_class := "!PieceWiseApprox".
Definition upwa_ser (u : axupwa) : py :=
  PDict [(KS "class", PStr upwa_class); (KS "function", PStr (u_fct u)); (KS "precision", PStr (u_prec u));
         (KS "interval", PStr (u_itv u));
         (KS "approx_params", PDict [(KS "indexing", PStr (u_idx u)); (KS "num_intervals", PInt (u_num u));
                                     (KS "max_degree", PInt (u_maxd u)); (KS "odd", PBool (u_odd u)); (KS "even", PBool (u_even u))]);
         (KS "approx_error", err_ser (u_err u)); (KS "tag", u_tag u); (KS "approx_data", PList (map spa_ser (u_list u)))].
Definition upwa_des (d : py) : res axupwa :=
  do f <- field d "function"; do p <- field d "precision"; do i <- field d "interval";
  do pr <- field d "approx_params"; do n <- field pr "num_intervals"; do md <- field pr "max_degree";
  do ed <- field d "approx_error"; do e <- err_des ed;
  do o <- field pr "odd"; do ev <- field pr "even"; do tag <- field d "tag";
  do ad <- field d "approx_data"; do al <- to_list ad; do l <- mapM spa_des al; do ix <- field pr "indexing";
  do fs <- to_str f; do is <- to_str i; do ixs <- to_str ix; do nz <- to_int n; do mdz <- to_int md; do ps <- to_str p;
  Ok (Axupwa fs is ixs nz mdz e (to_bool o) (to_bool ev) l ps tag).

(* 392-481 *)
Record axgps := Axgps { g_off : string; g_idx : string; g_itv : string; g_err : axerr; g_prec : string; g_list : list axspa;
                        g_tag : py; g_maxd : Z; g_odd : py; g_even : py }.
Definition gps_class := "!GenericPolynomialSplit".
Definition gps_ser (g : axgps) : py :=
  PDict [(KS "class", PStr gps_class); (KS "precision", PStr (g_prec g));
         (KS "approx_params", PDict [(KS "offset_fct", PStr (g_off g)); (KS "indexing", PStr (g_idx g));
                                     (KS "max_degree", PInt (g_maxd g)); (KS "odd", g_odd g); (KS "even", g_even g)]);
         (KS "interval", PStr (g_itv g)); (KS "function", PStr (g_off g)); (KS "approx_error", err_ser (g_err g));
         (KS "approx_data", PList (map spa_ser (g_list g))); (KS "tag", g_tag g)].
Definition gps_des (d : py) : res axgps :=
  do pr <- field d "approx_params"; do o <- field pr "offset_fct"; do p <- field d "precision"; do i <- field d "interval";
  do ix <- field pr "indexing"; do md <- field pr "max_degree"; do ed <- field d "approx_error"; do e <- err_des ed;
  do tag <- field d "tag"; do ad <- field d "approx_data"; do al <- to_list ad; do l <- mapM spa_des al;
  do od <- field pr "odd"; do ev <- field pr "even";
  do os <- to_str o; do ixs <- to_str ix; do is <- to_str i; do ps <- to_str p; do mdz <- to_int md;
  Ok (Axgps os ixs is e ps l tag mdz od ev).

(* ------------------------------------------------------------------ *)
(* indexings in text: indexing.py                                       *)
(* ------------------------------------------------------------------ *)
(* s without the prefix p *)
Fixpoint strip (p s : string) : option string :=
  match p, s with
  | "", _ => Some s
  | String a p', String b s' => if Ascii.eqb a b then strip p' s' else None
  | _, "" => None
  end.
(* the text before the first c and the one after it *)
Fixpoint until (c : ascii) (s : string) : option (string * string) :=
  match s with
  | "" => None
  | String a t => if Ascii.eqb a c then Some ("", t) else
                  match until c t with Some (x, y) => Some (String a x, y) | None => None end
  end.

(* formats with a name in the dictionary of SubFPIndexing.__repr__ 139-142 *)
Inductive fpname := NBinary32 | NBinary64.
Definition fpname_str (f : fpname) : string := match f with NBinary32 => "ML_Binary32" | NBinary64 => "ML_Binary64" end.
Definition fpname_of (s : string) : option fpname :=
  if String.eqb s "ML_Binary32" then Some NBinary32 else if String.eqb s "ML_Binary64" then Some NBinary64 else None.

(* SubFPIndexing(low, max, f, precision), SubUniformIntervalIndexing(interval, n);
   SubMantissaIndexing has no __repr__ *)
Inductive indexing (V : Type) := IFp (low mx f : Z) (p : fpname) | IUni (itv : V) (n : Z) | IMant (k : Z).
Arguments IFp {V}. Arguments IUni {V}. Arguments IMant {V}.

Definition comma : ascii := ","%char.
Definition quote : ascii := """"%char.
Definition Q1 : string := String quote "".

(* repr 138-143, 217-218; the default repr of an object ends with its address *)
Definition idx_str {V} (show : V -> string) (i : indexing V) : string :=
  match i with
  | IFp low mx f p => "SubFPIndexing(" ++ dec low ++ ", " ++ dec mx ++ ", " ++ dec f ++ ", " ++ fpname_str p ++ ")"
  | IUni itv n => "SubUniformIntervalIndexing(" ++ Q1 ++ show itv ++ Q1 ++ ", " ++ dec n ++ ")"
  | IMant _ => "<metalibm_core.core.indexing.SubMantissaIndexing object at 0x7f0000000000>"
  end.

(* "v, rest" *)
Definition int_then (s : string) : option (Z * string) :=
  match until comma s with
  | Some (a, String " "%char r) => match undec a with Some z => Some (z, r) | None => None end
  | _ => None
  end.
(* eval(s) on the calls that repr prints; anything else raises *)
Definition idx_parse {V} (sparse : string -> V) (s : string) : res (indexing V) :=
  match strip "SubFPIndexing(" s with
  | Some r =>
    match int_then r with
    | Some (low, r1) =>
      match int_then r1 with
      | Some (mx, r2) =>
        match int_then r2 with
        | Some (f, r3) =>
          match until ")"%char r3 with
          | Some (nm, "") => match fpname_of nm with Some p => Ok (IFp low mx f p) | None => Raise EParse end
          | _ => Raise EParse
          end
        | None => Raise EParse
        end
      | None => Raise EParse
      end
    | None => Raise EParse
    end
  | None =>
    match strip ("SubUniformIntervalIndexing(" ++ Q1) s with
    | Some r =>
      match until quote r with
      | Some (itv, r1) =>
        match strip ", " r1 with
        | Some r2 =>
          match until ")"%char r2 with
          | Some (a, "") => match undec a with Some n => Ok (IUni (sparse itv) n) | None => Raise EParse end
          | _ => Raise EParse
          end
        | None => Raise EParse
        end
      | None => Raise EParse
      end
    | None => Raise EParse
    end
  end.

(* ------------------------------------------------------------------ *)
(* formats in text: ml_template.py 80-164, str of the formats           *)
(* ------------------------------------------------------------------ *)
Inductive fmt :=
| Half | Single | Double | LongDouble | BF16 | DD | DS | TD | TS
| SInt (n : Z) | UInt (n : Z)                      (* ML_Int32, ... *)
| Fixed (signed : bool) (i f : Z).                 (* ML_Custom_FixedPoint_Format *)
(* what precision_parser answers: a format or, for eval of a number, a number *)
Inductive pformat := PF (f : fmt) | PNum (z : Z).

(* ml_formats.py 329-330, 646-647, 832-836, 961-965, 1028-1032, 1267-1268 *)
Definition fmt_str (f : fmt) : string :=
  match f with
  | Half => "half" | Single => "float" | Double => "double" | LongDouble => "long double"
  | BF16 => "bfloat16/uint16_t"
  | DD => "ml_dd_t" | DS => "ml_ds_t" | TD => "ml_td_t" | TS => "ml_ts_t"
  | SInt n => "int" ++ dec n ++ "_t"
  | UInt n => "uint" ++ dec n ++ "_t"
  | Fixed sg i f => (if sg then "FS" else "FU") ++ dec i ++ "." ++ dec f
  end.

(* ml_template.py 80-102 *)
Definition precision_map : list (string * fmt) :=
  [("binary16", Half); ("binary32", Single); ("binary64", Double); ("bfloat16", BF16);
   ("half", Half); ("float", Single); ("single", Single); ("double", Double);
   ("dd", DD); ("ds", DS); ("td", TD); ("ts", TS);
   ("int32", SInt 32); ("uint32", UInt 32); ("int64", SInt 64); ("uint64", UInt 64)].
Fixpoint sget {A} (l : list (string * A)) (k : string) : option A :=
  match l with [] => None | (x, v) :: t => if String.eqb x k then Some v else sget t k end.

(* ml_formats.py 773-776: re.match("(F[US])(-?[\d]+)\.(-?[\d]+)"), a prefix of
   the text; the longest run of digits is taken *)
Definition is_digit (c : ascii) : bool := let n := nat_of_ascii c in Nat.leb 48 n && Nat.leb n 57.
Fixpoint digits_of (s : string) : string * string :=
  match s with
  | String c t => if is_digit c then let '(a, b) := digits_of t in (String c a, b) else ("", s)
  | "" => ("", "")
  end.
Definition signed_digits (s : string) : option (Z * string) :=
  let '(neg, t) := match s with String "-"%char t => (true, t) | _ => (false, s) end in
  let '(d, r) := digits_of t in
  match d with
  | "" => None
  | _ => match undec d with Some z => Some ((if neg then - z else z)%Z, r) | None => None end
  end.
Definition fixed_match (s : string) : option fmt :=
  match s with
  | String "F"%char (String u r) =>
    if Ascii.eqb u "U"%char || Ascii.eqb u "S"%char then
      match signed_digits r with
      | Some (i, String "."%char r') =>
        match signed_digits r' with
        | Some (f, _) => Some (Fixed (Ascii.eqb u "S"%char) i f)
        | None => None
        end
      | _ => None
      end
    else None
  | _ => None
  end.

(* 145-164; eval is modelled on decimal numbers, on the names of the formats and
   as failing elsewhere *)
Definition ml_names : list (string * fmt) :=
  [("ML_Binary16", Half); ("ML_Binary32", Single); ("ML_Binary64", Double); ("ML_Binary80", LongDouble); ("BFloat16", BF16);
   ("ML_DoubleDouble", DD); ("ML_SingleSingle", DS); ("ML_TripleDouble", TD); ("ML_TripleSingle", TS);
   ("ML_Int32", SInt 32); ("ML_UInt32", UInt 32); ("ML_Int64", SInt 64); ("ML_UInt64", UInt 64)].
Definition precision_parser (s : string) : res pformat :=
  match sget precision_map s with
  | Some f => Ok (PF f)
  | None =>
    match fixed_match s with
    | Some f => Ok (PF f)
    | None =>
      match sget ml_names s with
      | Some f => Ok (PF f)
      | None => match undec s with Some z => Ok (PNum z) | None => Raise EParse end
      end
    end
  end.

(* ------------------------------------------------------------------ *)
(* conversion to and from the objects of the library                    *)
(* ------------------------------------------------------------------ *)
Section Sollya.
Variable V : Type.
Variable show : V -> string.      (* str of a Sollya object *)
Variable sparse : string -> V.    (* sollya.parse *)
Variable vabs : V -> V.           (* sup(abs(v)), axf_utils.py:73 *)

Inductive kind := Absolute | Relative.
Definition kind_str (k : kind) : string := match k with Absolute => "absolute" | Relative => "relative" end.
Record mlerr := Mlerr { m_kind : kind; m_val : V }.
(* 144-150 *)
Definition err_export (e : axerr) : res mlerr :=
  match xe_type e with
  | PStr t => if String.eqb t "absolute" then Ok (Mlerr Absolute (vabs (sparse (xe_value e))))
              else if String.eqb t "relative" then Ok (Mlerr Relative (vabs (sparse (xe_value e))))
              else Raise ENotImplemented
  | _ => Raise ENotImplemented
  end.
(* 151-154 *)
Definition err_from (e : mlerr) : axerr := Axerr (PStr (kind_str (m_kind e))) (show (m_val e)).

Record mlspa := Mlspa { s_poly : list (Z * V); s_fct : V; s_degs : list Z; s_fmts : list pformat; s_itv : V; s_err : mlerr }.
(* 254-263, 277-278 *)
Definition spa_export (a : axspa) : res mlspa :=
  do fm <- mapM precision_parser (a_fmts a);
  do e <- err_export (a_err a);
  Ok (Mlspa (map (fun kv => (fst kv, sparse (snd kv))) (a_poly a)) (sparse (a_fct a)) (a_degs a) fm (sparse (a_itv a)) e).

(* interval: the one of the indexing object (173), or the one of the file (377) *)
Record mlgps := Mlgps { p_fct : string; p_idx : indexing V; p_maxd : Z; p_err : mlerr; p_prec : pformat; p_tag : py;
                        p_list : list mlspa; p_odd : bool; p_even : bool }.
(* 464-477, 171-179 *)
Definition gps_export (g : axgps) : res mlgps :=
  do ix <- idx_parse sparse (g_idx g);
  do e <- err_export (g_err g);
  do pr <- precision_parser (g_prec g);
  do l <- mapM spa_export (g_list g);
  Ok (Mlgps (g_off g) ix (g_maxd g) e pr (g_tag g) l (to_bool (g_odd g)) (to_bool (g_even g))).

Record mlupwa := Mlupwa { w_fct : string; w_prec : pformat; w_itv : V; w_num : Z; w_maxd : Z; w_err : mlerr; w_odd : bool; w_even : bool;
                          w_tag : py; w_list : list mlspa; w_idx : indexing V }.
(* 371-386 *)
Definition upwa_export (u : axupwa) : res mlupwa :=
  do pr <- precision_parser (u_prec u);
  do e <- err_export (u_err u);
  do l <- mapM spa_export (u_list u);
  do ix <- idx_parse sparse (u_idx u);
  Ok (Mlupwa (u_fct u) pr (sparse (u_itv u)) (u_num u) (u_maxd u) e (u_odd u) (u_even u) (u_tag u) l ix).

Inductive mlobj := OUpwa (u : mlupwa) | OGps (g : mlgps) | OSpa (s : mlspa).
Inductive axobj := XUpwa (u : axupwa) | XGps (g : axgps) | XSpa (s : axspa).
Definition serialize (x : axobj) : py :=
  match x with XUpwa u => upwa_ser u | XGps g => gps_ser g | XSpa s => spa_ser s end.
Definition to_ml (x : axobj) : res mlobj :=
  match x with
  | XUpwa u => do o <- upwa_export u; Ok (OUpwa o)
  | XGps g => do o <- gps_export g; Ok (OGps o)
  | XSpa s => do o <- spa_export s; Ok (OSpa o)
  end.
(* 552-557 *)
Definition import_dict (d : py) : res mlobj :=
  do c <- field d "class";
  let is s := match c with PStr x => String.eqb s x | _ => false end in
  if is upwa_class then do u <- upwa_des d; to_ml (XUpwa u)
  else if is gps_class then do g <- gps_des d; to_ml (XGps g)
  else if is spa_class then do s <- spa_des d; to_ml (XSpa s)
  else Raise EUnknownClass.

Inductive imported := One (o : mlobj) | Many (l : list mlobj).
(* 541-550 on the value read *)
Definition import_value (v : py) : res imported :=
  match v with
  | PList l => do r <- mapM import_dict l; Ok (Many r)
  | _ => do o <- import_dict v; Ok (One o)
  end.
(* 526-529 then 533-538 *)
Definition write_read (v : py) : res imported := do v' <- json_io v; import_value v'.

(* the constructors called on objects of the library: 198-210 as called in
   approximation.py:228-233, 395-406 as called in approximation.py:138 *)
Definition spa_of (s : mlspa) (fstr : pformat -> string) (tag : py) : axspa :=
  Axspa (zdict (map (fun kv => (fst kv, show (snd kv))) (s_poly s))) (show (s_fct s)) (s_degs s)
        (map fstr (s_fmts s)) (show (s_itv s)) (err_from (s_err s)) tag.
End Sollya.

(* ------------------------------------------------------------------ *)
(* conversions from objects: 230-240, 338-354, 432-447                  *)
(* ------------------------------------------------------------------ *)
(* attributes set by the constructors 61-68, 158-164, 171-179, 184-193 *)
Definition spa_attrs := ["function"; "degree_list"; "format_list"; "interval"; "poly"; "approx_error"].
Definition pw_attrs := ["function"; "precision"; "interval"; "approx_error"; "tag"].
Definition gps_attrs := (pw_attrs ++ ["offset_fct"; "indexing"; "approx_list"; "max_degree"; "odd"; "even"])%list.
Definition upwa_attrs := (pw_attrs ++ ["num_intervals"; "max_degree"; "odd"; "even"; "approx_list"; "indexing"])%list.

(* evaluation of the arguments of a call in order: attributes of an object of
   the given class, or global names *)
Inductive expr := Attr (a : string) | Name (n : string).
Fixpoint eval_args (attrs globals : list string) (l : list expr) : res unit :=
  match l with
  | [] => Ok tt
  | Attr a :: t => if existsb (String.eqb a) attrs then eval_args attrs globals t else Raise EAttribute
  | Name n :: t => if existsb (String.eqb n) globals then eval_args attrs globals t else Raise ENameErr
  end.
Definition module_names := ["AXF_Polynomial"; "AXF_SimplePolyApprox"; "AXF_ApproxError"; "AXF_UniformPiecewiseApprox"; "AXF_GenericPolynomialSplit"].
Definition from_SPA_args := [Attr "poly"; Attr "fct"; Attr "degree_list"; Attr "format_list"; Attr "interval"; Attr "absolute"; Attr "approx_error"].
Definition from_UPWA_args := [Attr "function"; Attr "precision"; Attr "interval"; Attr "num_intervals"; Attr "max_degree"; Attr "error_bound";
  Attr "odd"; Attr "even"; Attr "tag"; Attr "approx_list"; Attr "indexing"].
Definition from_GPS_args := [Attr "offset_fct"; Attr "precision"; Attr "interval"; Attr "indexing"; Attr "max_degree"; Attr "approx_error"; Attr "tag";
  Name "upwa"; Attr "odd"; Attr "even"].
Definition from_SPA := eval_args spa_attrs module_names from_SPA_args.
Definition from_UPWA := eval_args upwa_attrs module_names from_UPWA_args.
Definition from_GPS := eval_args gps_attrs module_names from_GPS_args.
