(* Model of the vector promotion pass, /repo/metalibm_core/opt/p_vector_promotion.py 46-273,
   with the translation tables of /repo/metalibm_core/targets/intel/m128_promotion.py 53-65 and
   m256_promotion.py 51-60.

   Simplifications:
   - the objects of the graph are trees whose nodes carry their identity; the memoization maps
     are keyed by identity.  A node that is not promoted is modified in place: it keeps its
     identity.  A promoted node is a copy (copy_map gives one copy per node), a conversion is a
     new object;
   - when an operation is reached again with another expected format the pass goes through the
     operands it has already rewritten, the model through the original ones; promotion_twice
     in VproProps shows that rewritten operands are left as they are;
   - get_match_format is the identity, target.is_supported_operation is an arbitrary predicate
     on the operation and the formats of its interface;
   - get_converted_node and evaluate_converted_graph_cost are never called;
   - the pre-statement of a ConditionBlock and SwitchBlock, which the pass never enters, are left
     out, as is RangeLoop (hardware only). *)
From Coq Require Import ZArith List Bool String Arith.
Import ListNotations.
Open Scope string_scope.
Open Scope list_scope.

(* ML_TableFormat, or any other format, by name *)
Inductive fmt := FTab (s : string) | FNamed (s : string).
Definition fmt_eqb (a b : fmt) : bool :=
  match a, b with FTab x, FTab y => String.eqb x y | FNamed x, FNamed y => String.eqb x y | _, _ => false end.

Inductive ident := Id (n : nat) | Cp (i : ident) | Cv (n : nat).
Fixpoint ident_eqb (a b : ident) : bool :=
  match a, b with
  | Id x, Id y => Nat.eqb x y
  | Cp x, Cp y => ident_eqb x y
  | Cv x, Cv y => Nat.eqb x y
  | _, _ => false
  end.

(* [never]: VectorElementSelection and FunctionCall, 154-157 *)
Record oper := mkop { oname : string; never : bool }.

Inductive node :=
| NLeaf (i : ident) (f : fmt) (x : string)                  (* leaf other than a table or a constant *)
| NTable (i : ident) (f : fmt) (t : string)                 (* ML_NewTable *)
| NCst (i : ident) (f : fmt) (v : Z)
| NOp (i : ident) (o : oper) (f : fmt) (args : list node).
Definition nid (n : node) : ident := match n with NLeaf i _ _ => i | NTable i _ _ => i | NCst i _ _ => i | NOp i _ _ _ => i end.
Definition nfmt (n : node) : fmt := match n with NLeaf _ f _ => f | NTable _ f _ => f | NCst _ f _ => f | NOp _ _ f _ => f end.

(* MapStack 71-87, innermost level first; the lookup starts with the outermost level *)
Definition key := (fmt * ident)%type.
Definition key_eqb (a b : key) : bool := fmt_eqb (fst a) (fst b) && ident_eqb (snd a) (snd b).
Definition mstack := list (list (key * node)).
Fixpoint kassoc (k : key) (l : list (key * node)) : option node :=
  match l with [] => None | (k', n) :: t => if key_eqb k' k then Some n else kassoc k t end.
Fixpoint mget (k : key) (m : mstack) : option node :=
  match m with
  | [] => None
  | l :: t => match mget k t with Some n => Some n | None => kassoc k l end
  end.
Definition mset (k : key) (n : node) (m : mstack) : mstack :=
  match m with [] => [] | l :: t => ((k, n) :: l) :: t end.
Record st := mkst { memo : mstack; next : nat }.
Definition open_level (s : st) : st := mkst ([] :: memo s) (next s).
Definition close_level (s : st) : st := mkst (tl (memo s)) (next s).

Section Pass.
Variable table : fmt -> option fmt.                          (* get_translation_table, named formats *)
Variable supported : string -> fmt -> list fmt -> bool.      (* target.is_supported_operation *)

(* 134-146 *)
Definition conv_format (f : fmt) : option fmt := match f with FTab _ => Some f | _ => table f end.
Definition convertible (f : fmt) : bool := match conv_format f with Some _ => true | None => false end.

Fixpoint conv_formats (l : list fmt) : option (list fmt) :=
  match l with
  | [] => Some []
  | f :: t => match conv_format f, conv_formats t with Some f', Some t' => Some (f' :: t') | _, _ => None end
  end.
(* 150-182 does_target_support_promoted_op *)
Definition promotable (n : node) : bool :=
  convertible (nfmt n) &&
  match n with
  | NLeaf _ _ _ => false
  | NTable _ _ _ => false
  | NCst _ f v => match conv_format f with Some f' => supported "Constant" f' [] | None => false end
  | NOp _ o f args =>
      negb (never o) && forallb convertible (map nfmt args) &&
      match conv_format f, conv_formats (map nfmt args) with
      | Some f', Some l => supported (oname o) f' l
      | _, _ => false
      end
  end.

(* 55-68; a new Conversion object *)
Definition insert_conversion (s : st) (n : node) (expected : fmt) : node * st :=
  if fmt_eqb (nfmt n) expected then (n, s)
  else (NOp (Cv (next s)) (mkop "Conversion" false) expected [n], mkst (memo s) (S (next s))).
(* 184-189 *)
Definition memoize (expected : fmt) (i : ident) (r : node * st) : node * st :=
  (fst r, mkst (mset (expected, i) (fst r) (memo (snd r))) (next (snd r))).

(* the operands in order, each with its expected format *)
Definition prom_list (pr : st -> node -> fmt -> option (node * st)) (ef : node -> option fmt) :=
  fix go (s : st) (l : list node) : option (list node * st) :=
    match l with
    | [] => Some ([], s)
    | a :: t =>
        match ef a with
        | None => None
        | Some fa =>
            match pr s a fa with
            | None => None
            | Some (a', s1) => match go s1 t with Some (t', s2) => Some (a' :: t', s2) | None => None end
            end
        end
    end.
(* 204-267 promote_node on expressions *)
Fixpoint promote (s : st) (n : node) (expected : fmt) {struct n} : option (node * st) :=
  match mget (expected, nid n) (memo s) with
  | Some r => Some (r, s)
  | None =>
      if promotable n then
        match n with
        | NCst i f v =>
            match conv_format f with
            | Some f' => Some (memoize expected i (insert_conversion s (NCst (Cp i) f' v) expected))
            | None => None
            end
        | NOp i o f args =>
            match prom_list promote (fun a => conv_format (nfmt a)) s args, conv_format f with
            | Some (args', s1), Some f' =>
                Some (memoize expected i (insert_conversion s1 (NOp (Cp i) o f' args') expected))
            | _, _ => None
            end
        | _ => None
        end
      else
        match n with
        | NTable i f t => Some (memoize expected i (n, s))
        | NLeaf i f x =>
            if fmt_eqb expected f then Some (n, s)
            else match table f with
                 | Some _ => Some (memoize expected i (insert_conversion s n expected))
                 | None => None                               (* NotImplementedError *)
                 end
        | NCst i f v => Some (memoize expected i (insert_conversion s n expected))
        | NOp i o f args =>
            match prom_list promote (fun a => Some (nfmt a)) s args with
            | Some (args', s1) => Some (memoize expected i (insert_conversion s1 (NOp i o f args') expected))
            | None => None
            end
        end
  end.

(* statements: they have no format, so they are never promoted; ConditionBlock 245-252,
   Loop 253-259, Statement, ReferenceAssign and Return 260-267 *)
Inductive stmt :=
| SSkip
| SSeq (a b : stmt)
| SAssign (x : node) (e : node)
| SIf (c : node) (a b : stmt)
| SLoop (init : stmt) (c : node) (body : stmt)
| SReturn (e : node).

Fixpoint promote_stmt (s : st) (p : stmt) : option (stmt * st) :=
  match p with
  | SSkip => Some (SSkip, s)
  | SSeq a b =>
      match promote_stmt s a with
      | Some (a', s1) => match promote_stmt s1 b with Some (b', s2) => Some (SSeq a' b', s2) | None => None end
      | None => None
      end
  | SAssign x e =>
      match promote s x (nfmt x) with
      | Some (x', s1) => match promote s1 e (nfmt e) with Some (e', s2) => Some (SAssign x' e', s2) | None => None end
      | None => None
      end
  | SIf c a b =>
      match promote s c (nfmt c) with
      | Some (c', s1) =>
          match promote_stmt (open_level s1) a with
          | Some (a', s2) =>
              match promote_stmt (open_level (close_level s2)) b with
              | Some (b', s3) => Some (SIf c' a' b', close_level s3)
              | None => None
              end
          | None => None
          end
      | None => None
      end
  | SLoop i c b =>
      match promote_stmt s i with
      | Some (i', s1) =>
          match promote s1 c (nfmt c) with
          | Some (c', s2) =>
              match promote_stmt (open_level s2) b with
              | Some (b', s3) => Some (SLoop i' c' b', close_level s3)
              | None => None
              end
          | None => None
          end
      | None => None
      end
  | SReturn e => match promote s e (nfmt e) with Some (e', s1) => Some (SReturn e', s1) | None => None end
  end.

(* 109-118, 271-272: one level *)
Definition init_st : st := mkst [[]] 0.
Definition run_pass (p : stmt) : option stmt := match promote_stmt init_st p with Some (p', _) => Some p' | None => None end.
Definition run_expr (n : node) : option node := match promote init_st n (nfmt n) with Some (r, _) => Some r | None => None end.
End Pass.

(* the two tables of the Intel targets *)
Definition table_of (l : list (string * string)) (f : fmt) : option fmt :=
  match f with
  | FTab _ => None
  | FNamed s => match find (fun p => String.eqb (fst p) s) l with Some p => Some (FNamed (snd p)) | None => None end
  end.
Definition m128_list : list (string * string) :=
  [("ML_Binary32", "ML_SSE_m128_v1float32"); ("ML_Binary64", "ML_SSE_m128_v1float64");
   ("v2float64", "ML_SSE_m128_v2float64"); ("v4float32", "ML_SSE_m128_v4float32");
   ("v4bool", "ML_SSE_m128_v4bool"); ("v2lbool", "ML_SSE_m128_v2lbool");
   ("v2int64", "ML_SSE_m128_v2int64"); ("v4int32", "ML_SSE_m128_v4int32");
   ("v2uint64", "ML_SSE_m128_v2uint64"); ("v4uint32", "ML_SSE_m128_v4uint32");
   ("ML_Int32", "ML_SSE_m128_v1int32")].
Definition m256_list : list (string * string) :=
  [("v4float64", "ML_AVX_m256_v4float64"); ("v8float32", "ML_AVX_m256_v8float32");
   ("v4int64", "ML_AVX_m256_v4int64"); ("v8int32", "ML_AVX_m256_v8int32");
   ("v4uint64", "ML_AVX_m256_v4uint64"); ("v8uint32", "ML_AVX_m256_v8uint32");
   ("v8bool", "ML_AVX_m256_v8bool"); ("v4lbool", "ML_AVX_m256_v4lbool")].
Definition m128_table := table_of m128_list.
Definition m256_table := table_of m256_list.

(* formats of the lists: element and number of lanes, from ml_formats.py and
   x86_processor.py 125-237 *)
Inductive elt := EF32 | EF64 | EI32 | EI64 | EU32 | EU64 | EB | EL.
Definition shapes : list (string * (elt * nat)) :=
  [("ML_Binary32", (EF32, 1)); ("ML_Binary64", (EF64, 1)); ("v2float64", (EF64, 2)); ("v4float32", (EF32, 4));
   ("v4bool", (EB, 4)); ("v2lbool", (EL, 2)); ("v2int64", (EI64, 2)); ("v4int32", (EI32, 4));
   ("v2uint64", (EU64, 2)); ("v4uint32", (EU32, 4)); ("ML_Int32", (EI32, 1));
   ("v4float64", (EF64, 4)); ("v8float32", (EF32, 8)); ("v4int64", (EI64, 4)); ("v8int32", (EI32, 8));
   ("v4uint64", (EU64, 4)); ("v8uint32", (EU32, 8)); ("v8bool", (EB, 8)); ("v4lbool", (EL, 4));
   ("ML_SSE_m128_v1float32", (EF32, 1)); ("ML_SSE_m128_v1float64", (EF64, 1)); ("ML_SSE_m128_v2float64", (EF64, 2));
   ("ML_SSE_m128_v4float32", (EF32, 4)); ("ML_SSE_m128_v4bool", (EB, 4)); ("ML_SSE_m128_v2lbool", (EL, 2));
   ("ML_SSE_m128_v2int64", (EI64, 2)); ("ML_SSE_m128_v4int32", (EI32, 4)); ("ML_SSE_m128_v2uint64", (EU64, 2));
   ("ML_SSE_m128_v4uint32", (EU32, 4)); ("ML_SSE_m128_v1int32", (EI32, 1));
   ("ML_AVX_m256_v4float64", (EF64, 4)); ("ML_AVX_m256_v8float32", (EF32, 8)); ("ML_AVX_m256_v4int64", (EI64, 4));
   ("ML_AVX_m256_v8int32", (EI32, 8)); ("ML_AVX_m256_v4uint64", (EU64, 4)); ("ML_AVX_m256_v8uint32", (EU32, 8));
   ("ML_AVX_m256_v8bool", (EB, 8)); ("ML_AVX_m256_v4lbool", (EL, 4))].
Definition shape_of (f : fmt) : option (elt * nat) :=
  match f with
  | FTab _ => None
  | FNamed s => match find (fun p => String.eqb (fst p) s) shapes with Some p => Some (snd p) | None => None end
  end.
