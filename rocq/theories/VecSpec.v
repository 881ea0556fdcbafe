(** Reference meaning of scalar schemes: what the scalar C function computes.
    Nothing here mentions the vectorizer. *)

Require Import ZArith List Bool Lia.
From Verif Require Import VecModel.
Import ListNotations.
Open Scope Z_scope.

Section Meaning.
  (** meaning of the operations and external functions; [None] is undefined
      behaviour *)
  Variable ops : nat -> list Z -> option Z.

  (** value of the variables; [None]: not assigned, reading it is undefined *)
  Definition env := nat -> option Z.

  Fixpoint eval (r : env) (e : expr) : option Z :=
    match e with
    | EVar v => r v
    | ECst c => Some c
    | EOp o l | ECall o l =>
        match all_some (map (eval r) l) with
        | Some xs => ops o xs
        | None => None
        end
    | EAnd a b =>
        match eval r a, eval r b with
        | Some x, Some y => Some (b2z (truth x && truth y))
        | _, _ => None
        end
    | ENot a =>
        match eval r a with
        | Some x => Some (b2z (negb (truth x)))
        | None => None
        end
    end.

  Definition upd (r : env) (v : nat) (z : Z) : env :=
    fun w => if Nat.eqb w v then Some z else r w.

  (** A statement ends normally or returns a value. *)
  Inductive outcome : Type := Go (r : env) | Ret (z : Z).

  Inductive run : env -> stmt -> outcome -> Prop :=
  | run_node : forall r e, run r (SNode e) (Go r)
  | run_assign : forall r v e z,
      eval r e = Some z -> run r (SAssign v e) (Go (upd r v z))
  | run_return : forall r e z, eval r e = Some z -> run r (SReturn e) (Ret z)
  | run_nil : forall r, run r (SSeq []) (Go r)
  | run_cons : forall r r' s l o,
      run r s (Go r') -> run r' (SSeq l) o -> run r (SSeq (s :: l)) o
  | run_cons_ret : forall r s l z,
      run r s (Ret z) -> run r (SSeq (s :: l)) (Ret z)
  | run_pre_ret : forall r pre c lk t e z,
      run r pre (Ret z) -> run r (SIf pre c lk t e) (Ret z)
  | run_then : forall r r' pre c lk t e z o,
      run r pre (Go r') -> eval r' c = Some z -> truth z = true ->
      run r' t o -> run r (SIf pre c lk t e) o
  | run_else : forall r r' pre c lk t f z o,
      run r pre (Go r') -> eval r' c = Some z -> truth z = false ->
      run r' f o -> run r (SIf pre c lk t (Some f)) o
  | run_no_else : forall r r' pre c lk t z,
      run r pre (Go r') -> eval r' c = Some z -> truth z = false ->
      run r (SIf pre c lk t None) (Go r')
  | run_loop_ret : forall r init c b z,
      run r init (Ret z) -> run r (SLoop init c b) (Ret z)
  | run_loop_end : forall r r' init c b z,
      run r init (Go r') -> eval r' c = Some z -> truth z = false ->
      run r (SLoop init c b) (Go r')
  | run_loop_body_ret : forall r r' init c b z y,
      run r init (Go r') -> eval r' c = Some z -> truth z = true ->
      run r' b (Ret y) -> run r (SLoop init c b) (Ret y)
  | run_loop_next : forall r r' r'' init c b z o,
      run r init (Go r') -> eval r' c = Some z -> truth z = true ->
      run r' b (Go r'') -> run r'' (SLoop (SSeq []) c b) o ->
      run r (SLoop init c b) o.

  (** the scalar function: from the values of its arguments to its result *)
  Definition computes (s : stmt) (r : env) (z : Z) : Prop := run r s (Ret z).
End Meaning.

(** values of the [j]-th elements of the vector arguments *)
Definition lane (args : list nat) (venv : nat -> option (list Z)) (j : nat)
  : env :=
  fun v => if memb v args then
             match venv v with Some l => nth_error l j | None => None end
           else None.

(** variables assigned by a statement *)
Fixpoint assigned (s : stmt) : list nat :=
  match s with
  | SNode _ | SReturn _ => []
  | SAssign v _ => [v]
  | SSeq l => concat (map assigned l)
  | SIf pre _ _ t e =>
      assigned pre ++ assigned t
        ++ match e with Some f => assigned f | None => [] end
  | SLoop init _ b => assigned init ++ assigned b
  end.

Fixpoint vars (e : expr) : list nat :=
  match e with
  | EVar v => [v]
  | ECst _ => []
  | EOp _ l | ECall _ l => concat (map vars l)
  | EAnd a b => vars a ++ vars b
  | ENot a => vars a
  end.

(** assignments and other nodes only *)
Fixpoint straight (s : stmt) : bool :=
  match s with
  | SNode _ | SAssign _ _ => true
  | SSeq l => forallb straight l
  | _ => false
  end.

(** Schemes in the range of the vectorizer: no loop, every condition marked
    unlikely has an else-branch, pre-statements are straight-line. *)
Fixpoint branchy (s : stmt) : bool :=
  match s with
  | SNode _ | SAssign _ _ | SReturn _ => true
  | SSeq l => forallb branchy l
  | SIf pre _ lk t e =>
      straight pre && branchy t
      && match lk, e with
         | Some false, None => false
         | _, Some f => branchy f
         | _, None => true
         end
  | SLoop _ _ _ => false
  end.

(** no function call has a function call as an operand *)
Fixpoint flat_calls (e : expr) : bool :=
  match e with
  | EVar _ | ECst _ => true
  | EOp _ l => forallb flat_calls l
  | EAnd a b => flat_calls a && flat_calls b
  | ENot a => flat_calls a
  | ECall _ l => forallb (fun a => negb (is_call a) && flat_calls a) l
  end.

(** the same for every expression of a statement; expressions assigned to
    variables have no call at all, they may be substituted in an operand *)
Fixpoint no_call (e : expr) : bool :=
  match e with
  | EVar _ | ECst _ => true
  | EOp _ l => forallb no_call l
  | EAnd a b => no_call a && no_call b
  | ENot a => no_call a
  | ECall _ _ => false
  end.
Fixpoint flat_stmt (s : stmt) : bool :=
  match s with
  | SNode _ => true
  | SAssign _ e => no_call e
  | SReturn e => flat_calls e
  | SSeq l => forallb flat_stmt l
  | SIf pre c _ t e =>
      flat_stmt pre && flat_calls c && flat_stmt t
      && match e with Some f => flat_stmt f | None => true end
  | SLoop init c b => flat_stmt init && flat_calls c && flat_stmt b
  end.

(** no Return *)
Fixpoint no_return (s : stmt) : bool :=
  match s with
  | SNode _ | SAssign _ _ => true
  | SReturn _ => false
  | SSeq l => forallb no_return l
  | SIf pre _ _ t e =>
      no_return pre && no_return t
      && match e with Some f => no_return f | None => true end
  | SLoop init _ b => no_return init && no_return b
  end.

(** Returns only at the end of each path *)
Fixpoint tail_return (s : stmt) : bool :=
  match s with
  | SReturn _ => true
  | SSeq l =>
      (fix go l := match l with
                   | [] => false
                   | [x] => tail_return x
                   | x :: r => no_return x && go r
                   end) l
  | SIf pre _ _ t (Some f) => no_return pre && tail_return t && tail_return f
  | _ => false
  end.

(** empty pre-statements *)
Fixpoint no_pre (s : stmt) : bool :=
  match s with
  | SNode _ | SAssign _ _ | SReturn _ => true
  | SSeq l => forallb no_pre l
  | SIf pre _ _ t e =>
      match pre with SSeq [] => true | _ => false end && no_pre t
      && match e with Some f => no_pre f | None => true end
  | SLoop init _ b => no_pre init && no_pre b
  end.
