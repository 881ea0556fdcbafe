(* Summaries of tests and their comparison.
   Model of valid/test_summary.py:92-226 (PerfCompResult, TestSummary.dump,
   import_from_file, compare, dump_compare_result) and
   valid/soft_test_suite.py:306-336 (GlobalTestResult.summarize).

   Texts are lists of characters.  Dictionaries are lists of pairs in order of
   insertion.  float() is any function giving a number or failing (None); numbers
   are rationals, infinities and NaN, and percentages are exact.  Carriage returns,
   the printing of reports and the texts made from numbers are not modelled. *)
From Coq Require Import Ascii String List Bool ZArith QArith Qabs.
Import ListNotations.
Open Scope char_scope.

Definition text := list ascii.
Definition lit (s : string) : text := list_ascii_of_string s.
Definition sp : ascii := " ".
Definition nl : ascii := "010".
Definition hash : ascii := "#".
Definition eqs : ascii := "=".
Fixpoint text_eqb (a b : text) : bool :=
  match a, b with
  | [], [] => true
  | x :: s, y :: t => Ascii.eqb x y && text_eqb s t
  | _, _ => false
  end.

(* s.split(c) *)
Fixpoint split_on (c : ascii) (s : text) : list text :=
  match s with
  | [] => [[]]
  | x :: t =>
    if Ascii.eqb x c then [] :: split_on c t
    else match split_on c t with
         | w :: r => (x :: w) :: r
         | [] => [[x]]
         end
  end.
(* c.join(l) *)
Fixpoint join (c : ascii) (l : list text) : text :=
  match l with
  | [] => []
  | [w] => w
  | w :: r => w ++ c :: join c r
  end.

(* dictionaries *)
Definition dict (A : Type) := list (text * A).
Fixpoint get {A} (d : dict A) (k : text) : option A :=
  match d with [] => None | (x, v) :: t => if text_eqb x k then Some v else get t k end.
Fixpoint put {A} (d : dict A) (k : text) (v : A) : dict A :=
  match d with
  | [] => [(k, v)]
  | (x, w) :: t => if text_eqb x k then (x, v) :: t else (x, w) :: put t k v
  end.
Definition test_map := dict (list text).

Inductive error := IndexError | ValueError | KeyError | ReportedError | ZeroDivisionError.
Inductive result (A : Type) := Ok (a : A) | Err (e : error).
Arguments Ok {A} _.
Arguments Err {A} _.

(* ---- dump (111-116) ---- *)
Definition dump (comment : text) (m : test_map) : text :=
  lit "# format_version=" ++ lit "1" ++ [nl]
  ++ concat (map (fun line => lit "# " ++ line ++ [nl]) (split_on nl comment))
  ++ concat (map (fun e => join sp (fst e :: snd e) ++ [nl]) m).

(* ---- import_from_file (118-140) ---- *)
(* lines of a file, without their ends *)
Fixpoint drop_last_empty (l : list text) : list text :=
  match l with
  | [] => []
  | [ [] ] => []
  | w :: r => w :: drop_last_empty r
  end.
Definition readlines (s : text) : list text := drop_last_empty (split_on nl s).
Definition starts (c : ascii) (s : text) : bool := match s with x :: _ => Ascii.eqb x c | [] => false end.
Definition has (c : ascii) (s : text) : bool := existsb (Ascii.eqb c) s.
(* dict([tuple(v.split("=")) ...]) *)
Fixpoint pairs (l : list (list text)) (d : dict text) : result (dict text) :=
  match l with
  | [] => Ok d
  | [k; v] :: t => pairs t (put d k v)
  | _ :: _ => Err ValueError
  end.
Definition compatible (v : text) : bool := text_eqb v (lit "0") || text_eqb v (lit "1").
Fixpoint read_tests (l : list text) (m : test_map) : test_map :=
  match l with
  | [] => m
  | line :: t =>
    if starts hash line then read_tests t m
    else match split_on sp line with
         | name :: fields => read_tests t (put m name fields)
         | [] => m
         end
  end.
Definition import_from_file (s : text) : result test_map :=
  match readlines s with
  | [] => Err IndexError
  | header :: rest =>
    match header with
    | [] => Err IndexError
    | x :: _ =>
      if negb (Ascii.eqb x hash) then Err ReportedError
      else match pairs (map (split_on eqs) (filter (has eqs) (split_on sp header))) [] with
           | Err e => Err e
           | Ok properties =>
             match get properties (lit "format_version") with
             | None => Err KeyError
             | Some v => if compatible v then Ok (read_tests rest []) else Err ReportedError
             end
           end
    end
  end.

(* ---- compare (142-180) ---- *)
Inductive num := Fin (q : Q) | PInf | MInf | NaN.
Definition lt (a b : num) : bool :=
  match a, b with
  | Fin x, Fin y => negb (Qle_bool y x)
  | Fin _, PInf => true
  | MInf, Fin _ => true
  | MInf, PInf => true
  | _, _ => false
  end.
Definition is_zero (a : num) : bool := match a with Fin q => Qeq_bool q 0 | _ => false end.
(* (1 - res / ref) * 100, ref not being zero *)
Definition percent (ref res : num) : num :=
  match ref, res with
  | Fin a, Fin b => Fin ((1 - b / a) * 100)
  | Fin a, PInf => if Qle_bool a 0 then PInf else MInf
  | Fin a, MInf => if Qle_bool a 0 then MInf else PInf
  | PInf, Fin _ => Fin 100
  | MInf, Fin _ => Fin 100
  | _, _ => NaN
  end.
Inductive comp := Downgraded | Upgraded | NotFound | Improved (rel : num) | Decreased (rel : num).
(* PerfCompResult: abs_delta < 0, where abs_delta = ref_cpe - res_cpe *)
Definition perf_comp (ref res : num) : comp :=
  if lt ref res then Decreased (percent ref res) else Improved (percent ref res).
Definition is_ok (status : text) : bool := text_eqb status (lit "OK").

Section Compare.
Variable float : text -> option num.
(* float(ref.test_map[label][1]), then the same for res *)
Definition compare_perf (rf sf : list text) : result (option comp) :=
  match nth_error rf 1 with
  | None => Err IndexError
  | Some rt =>
    match float rt with
    | None => Ok (Some NotFound)
    | Some a =>
      match nth_error sf 1 with
      | None => Err IndexError
      | Some st =>
        match float st with
        | None => Ok (Some NotFound)
        | Some b => if is_zero a then Err ZeroDivisionError else Ok (Some (perf_comp a b))
        end
      end
    end
  end.
Definition compare_one (rf sf : list text) : result (option comp) :=
  match rf, sf with
  | [], _ => Err IndexError
  | _, [] => Err IndexError
  | r :: _, s :: _ =>
    if is_ok r && negb (is_ok s) then Ok (Some Downgraded)
    else if negb (is_ok r) && is_ok s then Ok (Some Upgraded)
    else if is_ok r && is_ok s then compare_perf rf sf
    else Ok None
  end.
Fixpoint compare_loop (ref res : test_map) : result (list (text * comp)) :=
  match ref with
  | [] => Ok []
  | (label, rf) :: t =>
    match match get res label with None => Ok (Some NotFound) | Some sf => compare_one rf sf end with
    | Err e => Err e
    | Ok c =>
      match compare_loop t res with
      | Err e => Err e
      | Ok l => Ok (match c with Some x => (label, x) :: l | None => l end)
      end
    end
  end.
Definition compare (ref res : test_map) := compare_loop ref res.
End Compare.

(* ---- dump_compare_result (182-226) ---- *)
Definition above (rel : num) (threshold : Q) : bool :=
  match rel with Fin q => negb (Qle_bool (Qabs q) threshold) | PInf => true | MInf => true | NaN => false end.
(* number of the first category whose predicate holds *)
Definition category (improved decreased : Q) (c : comp) : option nat :=
  match c with
  | Upgraded => Some 0
  | Improved rel => if above rel improved then Some 1 else None
  | Downgraded => Some 2
  | Decreased rel => if above rel decreased then Some 3 else None
  | NotFound => None
  end%nat.
Definition is_cat (k : option nat) (c : option nat) : bool :=
  match k, c with Some a, Some b => Nat.eqb a b | None, None => true | _, _ => false end.
Definition listed (improved decreased : Q) (k : option nat) (l : list (text * comp)) : list (text * comp) :=
  filter (fun e => is_cat k (category improved decreased (snd e))) l.

(* ---- summarize (soft_test_suite.py 306-336) ---- *)
Inductive failure := Generation | Build | Valid | Disabled | Other (message : text).
Record outcome := mkO { title : text; failed : option failure; cpe : option text; max_error : option (num * text) }.
(* abs(v) > ERROR_ULP_THRESHOLD or v != v or v < 0 *)
Definition bad_error (threshold : Q) (v : num) : bool :=
  match v with Fin q => negb (Qle_bool (Qabs q) threshold) || negb (Qle_bool 0 q) | _ => true end.
Definition fields_of (threshold : Q) (o : outcome) : list text :=
  match failed o with
  | None =>
    [ match max_error o with Some (v, _) => if bad_error threshold v then lit "KO[V]" else lit "OK" | None => lit "OK" end;
      match cpe o with Some t => t | None => lit "-" end;
      match max_error o with Some (_, t) => t | None => lit "-" end ]
  | Some Generation => [lit "KO[G]"]
  | Some Build => [lit "KO[B]"]
  | Some Valid => [lit "KO[V]"]
  | Some Disabled => [lit "N/A"]
  | Some (Other m) => [lit "KO[" ++ m ++ lit "]"]
  end.
Fixpoint summarize (threshold : Q) (l : list outcome) (m : test_map) : test_map :=
  match l with
  | [] => m
  | o :: t => summarize threshold t (put m (title o) (fields_of threshold o))
  end.
