(* Numerical tables.  Model of metalibm_core/core/ml_table.py and of
   metalibm_core/opt/p_table_linearization.py.

   A Python nested list is a tree; Python exceptions are None (or Err). *)
From Coq Require Import ZArith QArith List Bool Arith String Ascii.
From Verif Require Import FpFormatModel SpecialModel.
Import ListNotations.

Inductive arr (A : Type) := Leaf (a : A) | Node (l : list (arr A)).
Arguments Leaf {A}. Arguments Node {A}.

Fixpoint mapM {A B : Type} (f : A -> option B) (l : list A) : option (list B) :=
  match l with
  | [] => Some []
  | a :: l' => match f a, mapM f l' with Some b, Some r => Some (b :: r) | _, _ => None end
  end.

Section Tables.
Variable A : Type.
Variable pynone : A.          (* the Python value None *)

(* table[i], IndexError / TypeError: None *)
Definition item (t : arr A) (i : nat) : option (arr A) :=
  match t with Leaf _ => None | Node l => nth_error l i end.

(* ml_table.py:62-74 create_multi_dim_array *)
Fixpoint create_multi_dim_array (dimensions : list nat) (init : option (arr A)) : option (arr A) :=
  match dimensions with
  | [] => None                                (* dimensions[0]: IndexError *)
  | dim :: rest =>
    match rest with
    | [] =>
      match init with
      | Some d => option_map Node (mapM (fun i => item d i) (seq 0 dim))
      | None => Some (Node (map (fun _ => Leaf pynone) (seq 0 dim)))
      end
    | _ =>
      match init with
      | Some d => option_map Node
          (mapM (fun i => match item d i with None => None | Some x => create_multi_dim_array rest (Some x) end) (seq 0 dim))
      | None => option_map Node (mapM (fun _ => create_multi_dim_array rest None) (seq 0 dim))
      end
    end
  end.

(* ml_table.py:190-194 get_rec_index *)
Fixpoint get_rec_index (t : arr A) (idx : list nat) : option (arr A) :=
  match idx with
  | [] => None                                (* range_tuple[0]: IndexError *)
  | i :: rest =>
    match rest with
    | [] => item t i
    | _ => match item t i with None => None | Some x => get_rec_index x rest end
    end
  end.

(* itertools.product(range(d0), range(d1), ...) *)
Fixpoint product (dims : list nat) : list (list nat) :=
  match dims with
  | [] => [[]]
  | d :: rest => flat_map (fun i => map (cons i) (product rest)) (seq 0 d)
  end.

(* p_table_linearization.py:40-46 split2DTable: m tables of n entries, filled
   by the two loops *)
Fixpoint set_nth {B : Type} (l : list B) (k : nat) (b : B) : option (list B) :=
  match l, k with
  | [], _ => None
  | _ :: l', O => Some (b :: l')
  | x :: l', S k' => option_map (cons x) (set_nth l' k' b)
  end.
Definition load2 (t : list (list A)) (i j : nat) : option A :=
  match nth_error t i with None => None | Some row => nth_error row j end.
Definition split_step (table : list (list A)) (subs : option (list (list A))) (ij : nat * nat) : option (list (list A)) :=
  match subs with
  | None => None
  | Some s =>
    match load2 table (fst ij) (snd ij), nth_error s (snd ij) with
    | Some v, Some col => match set_nth col (fst ij) v with None => None | Some col' => set_nth s (snd ij) col' end
    | _, _ => None
    end
  end.
Definition split2DTable (n m : nat) (table : list (list A)) : option (list (list A)) :=
  fold_left (split_step table) (list_prod (seq 0 n) (seq 0 m)) (Some (repeat (repeat pynone n) m)).

(* p_table_linearization.py:56-83 expand_node on TableLoad(table, main, sub):
   value loaded by the replacement node.  sub_index is None when the second
   index is not a Constant (the node is left unchanged); Python indexing of the
   list of tables accepts negative constants *)
Definition expanded_load (n m : nat) (table : list (list A)) (main_index : nat) (sub_index : option Z) : option A :=
  match sub_index with
  | None => None
  | Some z =>
    match split2DTable n m table with
    | None => None
    | Some subs =>
      let k := if (z <? 0)%Z then (z + Z.of_nat (List.length subs))%Z else z in
      if (k <? 0)%Z then None
      else match nth_error subs (Z.to_nat k) with None => None | Some col => nth_error col main_index end
    end
  end.
End Tables.
Arguments item {A}. Arguments create_multi_dim_array {A}. Arguments get_rec_index {A}. Arguments load2 {A}.
Arguments split_step {A}. Arguments split2DTable {A}. Arguments expanded_load {A}.

(* ml_table.py:160-174 get_subset_interval: `value` are the entries selected;
   the comparisons are those of special_values.py.  The pair is what is given
   to Interval(low, high); None as a bound: no entry was seen *)
Definition tri_bool (t : res tri) : res bool :=
  match t with Ok T => Ok true | Ok F_ => Ok false | _ => Err end.
Definition interval_step (st : res (option fpv * option fpv)) (value : fpv) : res (option fpv * option fpv) :=
  match st with
  | Err => Err
  | Ok (low, high) =>
    if negb (is_number value) then Ok (Some value, Some value)
    else
      match (match low with None => Ok true | Some l => tri_bool (py_gt l value) end),
            (match high with None => Ok true | Some h => tri_bool (py_lt h value) end) with
      | Ok bl, Ok bh => Ok (if bl then Some value else low, if bh then Some value else high)
      | _, _ => Err
      end
  end.
Definition get_subset_interval (values : list fpv) : res (option fpv * option fpv) :=
  fold_left interval_step values (Ok (None, None)).

(* ml_table.py:185-199 compute_interval *)
Definition leaf_value (o : option (arr fpv)) : option fpv :=
  match o with Some (Leaf v) => Some v | _ => None end.
Definition compute_interval (dims : list nat) (t : arr fpv) : res (option fpv * option fpv) :=
  match mapM (fun idx => leaf_value (get_rec_index t idx)) (product dims) with
  | None => Err
  | Some vs => get_subset_interval vs
  end.

(* ml_table.py:177-183 get_interval with its cache; 148-149 __setitem__ on a
   one-dimension table *)
Record tstate := mkT { content : list fpv; cache : option (res (option fpv * option fpv)) }.
Inductive tcmd := SetItem (i : nat) (v : fpv) | GetInterval.
Definition tstep (s : tstate) (c : tcmd) : tstate :=
  match c with
  | SetItem i v => match set_nth (content s) i v with None => s | Some l => mkT l (cache s) end
  | GetInterval =>
    match cache s with
    | Some _ => s
    | None => mkT (content s) (Some (get_subset_interval (content s)))
    end
  end.

(* ml_table.py:77-109 get_table_content; leaves hold the text of the entry
   (storage_precision.get_cst) *)
Open Scope string_scope.
Definition nl : string := String (ascii_of_nat 10) "".
Section Content.
Variable tab : string.                        (* CodeConfiguration.tab *)
Definition row_suffix : string := nl ++ tab.
Definition starts_brace (s : string) : bool :=
  match s with String c _ => Ascii.eqb c "{" | _ => false end.
Definition tail_of (s : string) : string := match s with String _ r => r | _ => "" end.
Fixpoint drop_last (s : string) : string :=
  match s with "" => "" | String c "" => "" | String c r => String c (drop_last r) end.
Fixpoint last_is_comma (s : string) : bool :=
  match s with "" => false | String c "" => Ascii.eqb c "," | String _ r => last_is_comma r end.

Definition line_step (max_len : nat) (st : string * string) (value_str : string) : string * string :=
  let '(code, new_line) := st in
  let '(code, new_line) :=
    if Nat.ltb max_len (String.length new_line + String.length value_str)
    then
      let new_line := if starts_brace new_line then "{" ++ row_suffix ++ tail_of new_line else new_line in
      (code ++ new_line ++ row_suffix, "")
    else (code, new_line) in
  (code, new_line ++ " " ++ value_str ++ ",").
Definition content1 (max_len : nat) (values : list string) : string :=
  let '(code, new_line) := fold_left (line_step max_len) values ("", "{") in
  let new_line := if last_is_comma new_line then drop_last new_line else new_line in
  if starts_brace new_line then code ++ new_line ++ "}" else code ++ new_line ++ nl ++ "}".

Definition leaf_str (t : arr string) : option string := match t with Leaf s => Some s | Node _ => None end.
Fixpoint get_table_content (max_len : nat) (dims : list nat) (t : arr string) : option string :=
  match dims with
  | [] => None
  | _ :: rest =>
    match rest, t with
    | _, Leaf _ => None
    | [], Node l => option_map (content1 max_len) (mapM leaf_str l)
    | _, Node l =>
      match mapM (get_table_content 80 rest) l with
      | None => None
      | Some ls => Some ("{" ++ row_suffix ++ String.concat ("," ++ row_suffix) ls ++ nl ++ "}")
      end
    end
  end.
End Content.
