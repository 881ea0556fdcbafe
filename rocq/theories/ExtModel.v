(* Functions made of a part of a graph.
   Model of metalibm_core/core/ml_call_externalizer.py:49-107, with the calls of
   core/ml_function.py:1170-1173.

   Nodes are numbered; [g] says what each is.  Copying follows the inputs (core/ml_operations.py:
   652-660, 722-736, 816-829, 1935-1943): input variables are not copied, constants and tables
   keep their contents.  Formats are left out.  Fuel stands for the depth. *)
From Coq Require Import String List Arith Bool.
Import ListNotations.
Local Open Scope string_scope.

(* Op: an ML_ArithmeticOperation.  Call: a FunctionCall, which is not one. *)
Inductive shape := Input | Const (k : nat) | Table (const : bool) | Op (o : nat) (cs : list nat) | Call (f : nat) (cs : list nat).
(* the copies; Free: an input variable of the caller *)
Inductive tree := TFree (n : nat) | TConst (k : nat) | TTable (n : nat) | TParam (s : string)
  | TOp (o : nat) (l : list tree) | TCall (f : nat) (l : list tree).
Definition mapM {A B} (f : A -> option B) : list A -> option (list B) :=
  fix mapM l :=
    match l with
    | [] => Some []
    | a :: t => match f a, mapM t with Some b, Some r => Some (b :: r) | _, _ => None end
    end.

Section Graph.
Variable g : nat -> shape.
(* tags of the nodes, and the default names "arg_%d" *)
Variable tag : nat -> option string.
Variable default : nat -> string.

(* names of the arguments, 72-76 *)
Definition arg_name (i a : nat) : string := match tag a with Some s => s | None => default i end.
Fixpoint arg_names (i : nat) (args : list nat) : list string :=
  match args with [] => [] | a :: t => arg_name i a :: arg_names (S i) t end.
(* arg_map, 70-80: the last entry of a key counts, tables come after *)
Fixpoint last_name (i : nat) (args : list nat) (n : nat) : option string :=
  match args with
  | [] => None
  | a :: t => match last_name (S i) t n with
              | Some s => Some s
              | None => if Nat.eqb n a then Some (arg_name i a) else None
              end
  end.
Definition arg_map (args : list nat) (n : nat) : option tree :=
  match g n with
  | Table true => Some (TTable n)
  | _ => match last_name 0 args n with Some s => Some (TParam s) | None => None end
  end.
(* optree.copy(copy_map = arg_map), 83 *)
Fixpoint copy (fuel : nat) (args : list nat) (n : nat) : option tree :=
  match fuel with
  | O => None
  | S m =>
    match arg_map args n with
    | Some t => Some t
    | None =>
      match g n with
      | Input => Some (TFree n)
      | Const k => Some (TConst k)
      | Table _ => Some (TTable n)
      | Op o cs => option_map (TOp o) (mapM (copy m args) cs)
      | Call f cs => option_map (TCall f) (mapM (copy m args) cs)
      end
    end
  end.
(* the function: names of its parameters, its expression, and whether it is returned, 84-88 *)
Record func := { params : list string; body : tree; returned : bool }.
Definition generate (fuel : nat) (args : list nat) (n : nat) : option func :=
  match copy fuel args n with
  | Some t => Some {| params := arg_names 0 args; body := t;
                      returned := match g n with Op _ _ => true | _ => false end |}
  | None => None
  end.
End Graph.

(* ---- values *)
Section Values.
Variable V : Type.
Variables (inval constval tabval : nat -> V) (opsem callsem : nat -> list V -> V).
Variable g : nat -> shape.
(* the graph in the caller *)
Fixpoint eval (fuel n : nat) : option V :=
  match fuel with
  | O => None
  | S m =>
    match g n with
    | Input => Some (inval n)
    | Const k => Some (constval k)
    | Table _ => Some (tabval n)
    | Op o cs => option_map (opsem o) (mapM (eval m) cs)
    | Call f cs => option_map (callsem f) (mapM (eval m) cs)
    end
  end.
(* the body of the function, where variables of the caller are not known *)
Fixpoint teval (env : string -> option V) (t : tree) : option V :=
  match t with
  | TFree _ => None
  | TConst k => Some (constval k)
  | TTable n => Some (tabval n)
  | TParam s => env s
  | TOp o l => option_map (opsem o) (mapM (teval env) l)
  | TCall f l => option_map (callsem f) (mapM (teval env) l)
  end.
Fixpoint bind_params (ps : list string) (vs : list V) (s : string) : option V :=
  match ps, vs with
  | p :: pt, v :: vt => if String.eqb s p then Some v else bind_params pt vt s
  | _, _ => None
  end.
Fixpoint distinct (l : list string) : bool :=
  match l with [] => true | a :: t => negb (existsb (String.eqb a) t) && distinct t end.
(* a call in C: parameters must have different names, and something must be returned *)
Definition call (f : func) (vs : list V) : option V :=
  if distinct (params f) && Nat.eqb (List.length (params f)) (List.length vs) && returned f
  then teval (bind_params (params f) vs) (body f) else None.
End Values.

(* ---- CallExternalizer.externalize_call, 103-107: binding of the arguments of a Python call,
   positional then named; None is a TypeError *)
Fixpoint py_bind (formals : list string) (npos : nat) (kws : list string) : option (list string) :=
  match kws with
  | [] => Some []
  | k :: t =>
    if existsb (String.eqb k) (firstn npos formals) then None
    else if existsb (String.eqb k) formals then option_map (cons k) (py_bind formals npos t) else None
  end.
Definition formals : list string := ["name_factory"; "optree"; "arg_list"; "tag"; "result_format"].
(* CallExternalizer: four positional arguments *)
Definition externalizer_call : option (list string) := py_bind formals 4 ["tag"; "result_format"].
(* ML_FunctionBasis.externalize_call, ml_function.py:1172: five of them *)
Definition function_call : option (list string) := py_bind formals 5 [].
