(* Intervals in the answers of Gappa.
   Model of metalibm_core/utility/gappa_utils.py:44-53 (parse_gappa_interval) and 76-83 (the reading of the answer in
   execute_gappa_script_extract).

   Simplifications: text is a list of characters; the bounds are the two texts given to sollya.parse; a loop that
   does not end is a lack of fuel, for every fuel; the answer is the list of
   its lines; the reading of the bounds by sollya.parse and the running of Gappa are left out. *)
From Coq Require Import List Arith Bool Ascii.
Import ListNotations.

Definition text := list ascii.
Local Open Scope char_scope.
Definition lbrace : ascii := "{". Definition rbrace : ascii := "}". Definition comma : ascii := ",".
Inductive res (A : Type) := Ok (a : A) | ValueError | Endless.
Arguments Ok {A} a. Arguments ValueError {A}. Arguments Endless {A}.

(* 47: re.sub("[ \[\]]", "", s) *)
Definition blank (c : ascii) : bool := Ascii.eqb c " " || Ascii.eqb c "[" || Ascii.eqb c "]".
Definition strip (s : text) : text := filter (fun c => negb (blank c)) s.

(* 49-50: s.index(c) *)
Fixpoint index (c : ascii) (s : text) : option nat :=
  match s with [] => None | x :: t => if Ascii.eqb x c then Some 0 else match index c t with Some n => Some (S n) | None => None end end.

(* 48-51 *)
Fixpoint loop (fuel : nat) (s : text) : res text :=
  match fuel with
  | O => Endless
  | S n =>
    match index lbrace s with
    | None => Ok s
    | Some i => match index rbrace s with None => ValueError | Some j => loop n (firstn i s ++ skipn (S j) s) end
    end
  end.

(* 52: s.split(",") *)
Fixpoint split (s : text) : list text :=
  match s with
  | [] => [[]]
  | x :: t => if Ascii.eqb x comma then [] :: split t else match split t with p :: q => (x :: p) :: q | [] => [[x]] end
  end.

(* 44-53 *)
Definition parse_interval (fuel : nat) (s : text) : res (text * text) :=
  match loop fuel (strip s) with
  | Ok t => match split t with [a; b] => Ok (a, b) | _ => ValueError end
  | ValueError => ValueError
  | Endless => Endless
  end.

(* the text before the first occurrence of pat in s, and the text after it: s.split(pat) is this text, then the split of the rest *)
Fixpoint starts (pat s : text) : bool :=
  match pat, s with [], _ => true | _ :: _, [] => false | x :: p, y :: q => Ascii.eqb x y && starts p q end.
Fixpoint cut (pat s : text) : option (text * text) :=
  if starts pat s then Some ([], skipn (length pat) s)
  else match s with [] => None | x :: t => match cut pat t with Some (a, b) => Some (x :: a, b) | None => None end end.
Definition in_word : text := [" "; "i"; "n"; " "].
Definition results_word : text := ["R"; "e"; "s"; "u"; "l"; "t"; "s"].
(* 80-81: s.replace(" ", "") *)
Definition unspace (s : text) : text := filter (fun c => negb (Ascii.eqb c " ")) s.

(* a dictionary, the binding of a name first in the list being the current one: 82 *)
Definition dict := list (text * (text * text)).

(* 77-82 *)
Fixpoint read_lines (fuel : nat) (ls : list text) (d : dict) : res dict :=
  match ls with
  | [] => Ok d
  | l :: q =>
    match cut in_word l with
    | None => read_lines fuel q d
    | Some (a, b) =>
      match parse_interval fuel (unspace (match cut in_word b with None => b | Some (v, _) => v end)) with
      | Ok i => read_lines fuel q ((unspace a, i) :: d)
      | ValueError => ValueError
      | Endless => Endless
      end
    end
  end.

(* 76-83: the rest of the line of the first "Results" is dropped *)
Fixpoint extract (fuel : nat) (answer : list text) : res dict :=
  match answer with
  | [] => ValueError
  | l :: q => match cut results_word l with None => extract fuel q | Some _ => read_lines fuel q [] end
  end.
