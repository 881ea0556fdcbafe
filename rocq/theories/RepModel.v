(* Reports, displays and groups of functions.
   Model of metalibm_core/utility/log_report.py:38-150, core/display_utils.py:35-125,
   core/ml_formats.py:943-999 (the display of fixed-point formats) and
   code_generation/code_function.py:40-231.

   Objects compared with "is" have numbers.  str.format is modelled for messages whose
   fields are all "{}"; any other field raises, which is what Python does when nothing is
   named, but not for "{0}" with arguments.  The debugger is not modelled: it returns. *)
From Coq Require Import String Ascii List Arith Bool.
Import ListNotations.
Local Open Scope string_scope.

(* ---- str.format with positional arguments *)
Definition lbrace : ascii := "{"%char.
Definition rbrace : ascii := "}"%char.
Fixpoint pyformat (s : string) (args : list string) : option string :=
  match s with
  | EmptyString => Some ""
  | String c t =>
    if Ascii.eqb c lbrace then
      match t with
      | EmptyString => None
      | String d u =>
        if Ascii.eqb d lbrace then option_map (String lbrace) (pyformat u args)
        else if Ascii.eqb d rbrace then
          match args with [] => None | a :: r => option_map (append a) (pyformat u r) end
        else None
      end
    else if Ascii.eqb c rbrace then
      match t with
      | EmptyString => None
      | String d u => if Ascii.eqb d rbrace then option_map (String rbrace) (pyformat u args) else None
      end
    else option_map (String c) (pyformat t args)
  end.

(* ---- levels: LogLevel, 64-82.  lv_id: the object. *)
Record level := { lv_id : nat; lv_name : string; lv_sub : option string }.
(* LogLevelFilter.match, 76-82 *)
Definition lmatch (f t : level) : bool :=
  if negb (String.eqb (lv_name t) (lv_name f)) then false
  else match lv_sub f with
       | None => true
       | Some s => match lv_sub t with Some u => String.eqb s u | None => false end
       end.
(* filter_log_level, 99-105 *)
Fixpoint filter_log_level (fl : list level) (l : level) : bool :=
  match fl with [] => false | f :: t => if lmatch f l then true else filter_log_level t l end.
(* Log.Error, 87: the object of number 0 *)
Definition log_error : level := {| lv_id := 0; lv_name := "Error"; lv_sub := None |}.
(* gen_sub_level, 72-73: a new object *)
Definition gen_sub_level (id : nat) (l : level) (sub : string) : level :=
  {| lv_id := id; lv_name := lv_name l; lv_sub := Some sub |}.

(* class attributes, 39-45 and 92-96; the stream is what was written on it *)
Record log := { enabled : list level; stream : option string; stdout : list string;
                dump_stdout : bool; exit_on_error : bool; break_on_error : bool }.
(* enable_level, 136-137 *)
Definition enable_level (id : nat) (n : string) (sub : option string) (g : log) : log :=
  {| enabled := (enabled g ++ [{| lv_id := id; lv_name := n; lv_sub := sub |}])%list; stream := stream g; stdout := stdout g;
     dump_stdout := dump_stdout g; exit_on_error := exit_on_error g; break_on_error := break_on_error g |}.
Definition write (g : log) (m : string) : log :=
  {| enabled := enabled g; stream := match stream g with Some s => Some (s ++ m) | None => None end; stdout := stdout g;
     dump_stdout := dump_stdout g; exit_on_error := exit_on_error g; break_on_error := break_on_error g |}.
Definition print (g : log) (m : string) : log :=
  {| enabled := enabled g; stream := stream g; stdout := (stdout g ++ [m])%list;
     dump_stdout := dump_stdout g; exit_on_error := exit_on_error g; break_on_error := break_on_error g |}.

Inductive ending := Returned | Raised (e : string) | FormatFailed | Exited.
(* report, 116-131.  error: the exception given, if any; the exception built otherwise is
   its message. *)
Definition report (l : level) (msg : string) (args : list string) (error : option string) (g : log) : log * ending :=
  let m := pyformat msg args in
  let shown := filter_log_level (enabled g) l in
  let streams := match stream g with Some _ => true | None => false end in
  match (if shown && (streams || dump_stdout g) then m else Some "") with
  | None => (g, FormatFailed)
  | Some t =>
    let g1 := if shown && streams then write g t else g in
    let g2 := if shown && dump_stdout g then print g1 (lv_name l ++ ": " ++ t) else g1 in
    if Nat.eqb (lv_id l) (lv_id log_error) then
      let raised := match error with
                    | Some e => Raised e
                    | None => match m with Some x => Raised x | None => FormatFailed end
                    end in
      if break_on_error g then (g2, raised)
      else if exit_on_error g then (g2, Exited)
      else (g2, raised)
    else (g2, Returned)
  end.

(* ---- display of values: DisplayFormat, 68-80 *)
Record display := { format_string : string; pre_process : string -> string }.
Fixpoint rep (n : nat) (f : nat -> string) (i : nat) : list string :=
  match n with O => [] | S m => f i :: rep m f (S i) end.
Definition digit (n : nat) : string :=
  match n with
  | 0 => "0" | 1 => "1" | 2 => "2" | 3 => "3" | 4 => "4" | 5 => "5" | 6 => "6" | 7 => "7" | 8 => "8" | _ => "9"
  end.
(* the formats of vectors, 107-125: "[%a, %a]" and "v[0], v[1]" *)
Definition vector_display (conv : string) (n : nat) : display :=
  {| format_string := "[" ++ String.concat ", " (rep n (fun _ => conv) 0) ++ "]";
     pre_process := fun v => String.concat ", " (rep n (fun i => v ++ "[" ++ digit i ++ "]") 0) |}.
(* DISPLAY_DD_v4, DISPLAY_DS_v4, DISPLAY_DS_v8, 103-105: nf conversions for each limb,
   and elements 0 .. nh-1 of hi and 0 .. nl-1 of lo *)
Definition limbs_display (nf nh nl : nat) : display :=
  {| format_string := "{{.hi=[" ++ String.concat ", " (rep nf (fun _ => "%a") 0) ++ "], .lo=["
                      ++ String.concat ", " (rep nf (fun _ => "%a") 0) ++ "]}}";
     pre_process := fun v => String.concat ", " (List.app (rep nh (fun i => v ++ ".hi[" ++ digit i ++ "]") 0)
                                                   (rep nl (fun i => v ++ ".lo[" ++ digit i ++ "]") 0)) |}.
Definition DISPLAY_DS_v4 := limbs_display 4 4 4.
Definition DISPLAY_DS_v8 := limbs_display 8 8 4.
(* 83-101 *)
Definition DISPLAY_float32 : display := {| format_string := "%f"; pre_process := fun v => v |}.
Definition DISPLAY_ftox : display :=
  {| format_string := "%e, %""PRIx32"""; pre_process := fun v => v ++ ", float_to_32b_encoding(" ++ v ++ ")" |}.
Definition DISPLAY_lftolx : display :=
  {| format_string := "%.20e, %""PRIx64"""; pre_process := fun v => v ++ ", double_to_64b_encoding(" ++ v ++ ")" |}.
Definition DISPLAY_ddtolx : display :=
  {| format_string := "%""PRIx64"" %""PRIx64""";
     pre_process := fun v => "double_to_64b_encoding(" ++ v ++ ".hi), double_to_64b_encoding(" ++ v ++ ".lo)" |}.
Definition DISPLAY_DD : display :=
  {| format_string := "{{.hi=%a, .lo=%a}}"; pre_process := fun v => v ++ ".hi, " ++ v ++ ".lo" |}.
Definition DISPLAY_TD : display :=
  {| format_string := "{{.hi=%a, .me=%a, .lo=%a}}"; pre_process := fun v => v ++ ".hi, " ++ v ++ ".me, " ++ v ++ ".lo" |}.

(* fixed_point_beautify, 35-49, and multi_word_fixed_point_beautify, 51-69.  scale and
   shift: how the scale and the shifts of the words are written *)
Definition fixed_point_beautify (scale v : string) : string :=
  "(" ++ v ++ " * (double) " ++ scale ++ "), " ++ v.
Definition multi_word_beautify (words : nat) (shift : nat -> string) (scale v : string) : string :=
  "(" ++ v ++ " * (double) " ++ scale ++ "), "
  ++ String.concat ", " (rep words (fun i => "(uint64_t) (" ++ v ++ " >> " ++ shift i ++ ")") 0).

(* ---- fixed-point formats: ML_Base_SW_FixedPoint_Format, 919-999, of 1 to 128 bits with
   frac_size >= 0.  fx_support: the support format given when the format is built. *)
Record fixfmt := { fx_int : nat; fx_frac : nat; fx_signed : bool; fx_support : option nat }.
Definition c_bit_size (f : fixfmt) : nat :=
  let n := fx_int f + fx_frac f in
  if Nat.leb n 8 then 8 else if Nat.leb n 16 then 16 else if Nat.leb n 32 then 32 else if Nat.leb n 64 then 64 else 128.
Definition size_name (n : nat) : string :=
  if Nat.eqb n 8 then "8" else if Nat.eqb n 16 then "16" else if Nat.eqb n 32 then "32" else if Nat.eqb n 64 then "64" else "128".
Definition pri (f : fixfmt) : string :=
  "%""PRI" ++ (if fx_signed f then "i" else "u") ++ size_name (c_bit_size f) ++ """".
(* the display that is built, 972-991 *)
Definition new_display (shift scale : nat -> string) (f : fixfmt) : display :=
  if Nat.eqb (fx_frac f) 0 then {| format_string := pri f; pre_process := fun v => v |}
  else if Nat.leb (c_bit_size f) 64 then
    {| format_string := "%e/" ++ pri f; pre_process := fixed_point_beautify (scale (fx_frac f)) |}
  else
    let n := Nat.div (c_bit_size f) 64 in
    {| format_string := "%e / " ++ String.concat "" (rep n (fun _ => "%""PRIx64""") 0);
       pre_process := multi_word_beautify n shift (scale (fx_frac f)) |}.
(* the class map of displays, 920 and 970-999 *)
Definition dkey := (nat * nat * option nat)%type.
Definition key_eqb (a b : dkey) : bool :=
  let '(i, f, s) := a in let '(j, g, t) := b in
  Nat.eqb i j && Nat.eqb f g && match s, t with Some x, Some y => Nat.eqb x y | None, None => true | _, _ => false end.
Fixpoint lookup (k : dkey) (m : list (dkey * display)) : option display :=
  match m with [] => None | (a, d) :: t => if key_eqb k a then Some d else lookup k t end.
Definition build_display (shift scale : nat -> string) (f : fixfmt) (m : list (dkey * display))
  : display * list (dkey * display) :=
  let k := (fx_int f, fx_frac f, fx_support f) in
  match lookup k m with
  | Some d => (d, m)
  | None => let d := new_display shift scale f in (d, (k, d) :: m)
  end.
(* the formats built by a program, in order *)
Fixpoint build_all (shift scale : nat -> string) (fs : list fixfmt) (m : list (dkey * display)) : list (dkey * display) :=
  match fs with [] => m | f :: t => build_all shift scale t (snd (build_display shift scale f m)) end.

(* ---- functions: CodeFunction, 40-110.  A FunctionObject is the list of the formats of its
   arguments; formats are numbers *)
Record func := { f_id : nat; f_name : string; f_external : bool; f_args : list nat; f_object : option (list nat) }.
(* add_input_variable, 73-79 *)
Definition add_input_variable (f : func) (p : nat) : func :=
  {| f_id := f_id f; f_name := f_name f; f_external := f_external f; f_args := (f_args f ++ [p])%list; f_object := f_object f |}.
(* get_function_object, 89-93 *)
Definition get_function_object (f : func) : func * list nat :=
  match f_object f with
  | Some o => (f, o)
  | None => ({| f_id := f_id f; f_name := f_name f; f_external := f_external f; f_args := f_args f; f_object := Some (f_args f) |}, f_args f)
  end.

(* ---- groups: FunctionGroup, 183-231 *)
Record group := { core : list func; sub : list func }.
(* apply_to_core_functions, apply_to_sub_functions, 195-203: the functions the routine gets *)
Fixpoint visits (l : list func) (inc_external : bool) : list func :=
  match l with
  | [] => []
  | f :: t => if inc_external || negb (f_external f) then f :: visits t inc_external else visits t inc_external
  end.
(* apply_to_all_functions, 205-208 *)
Definition apply_to_all (g : group) (inc_external : bool) : list func :=
  (visits (sub g) inc_external ++ visits (core g) inc_external)%list.
(* merge_with_group, 211-223, of another group *)
Definition merge_with_group (g h : group) (demote : bool) : group :=
  let g1 := {| core := core g; sub := (sub g ++ sub h)%list |} in
  if demote then {| core := core g1; sub := (sub g1 ++ core h)%list |}
  else {| core := (core g1 ++ core h)%list; sub := sub g1 |}.
(* the first loop of merge_with_group when subgroup is the group itself: the list grows
   while it is read.  i: the index of the iterator.  None: not finished. *)
Fixpoint self_loop (fuel i : nat) (l : list func) : option (list func) :=
  match fuel with
  | O => None
  | S m => match nth_error l i with
           | None => Some l
           | Some f => self_loop m (S i) (l ++ [f])%list
           end
  end.
(* get_code_function_by_name, 226-230 *)
Definition get_by_name (g : group) (n : string) : option func :=
  find (fun f => String.eqb (f_name f) n) (core g ++ sub g)%list.
