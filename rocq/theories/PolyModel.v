(* Model of the polynomial evaluation schemes.
   Source: /repo/metalibm_core/core/polynomials.py.
   Coefficients are elements of any type C with the equality test used by
   is_cst_with_value; node tags and precisions of nodes are dropped, except
   that the precision is part of the key of the power map. *)
Require Import ZArith List Bool Sorting.Sorted.
Import ListNotations.
Open Scope Z_scope.

Section Poly.
  Variable C : Type.
  Variables c0 c1 cm1 : C.                 (* 0, 1.0, -1.0 *)
  Variable ceqb : C -> C -> bool.

  (* the nodes built: an arbitrary node (variable), Constant, Addition,
     Subtraction, Multiplication *)
  Inductive pexp :=
  | EVar (n : nat) | ECst (c : C) | EAdd (a b : pexp) | ESub (a b : pexp) | EMul (a b : pexp).

  (* 41-50 *)
  Definition is_cst_with_value (e : pexp) (v : C) : bool :=
    match e with ECst c => ceqb c v | _ => false end.

  (* power_map: (power, precision) -> node *)
  Definition pmap := list ((Z * nat) * pexp).
  Fixpoint pfind (k : Z * nat) (m : pmap) : option pexp :=
    match m with
    | [] => None
    | (k', e) :: t => if (fst k =? fst k') && Nat.eqb (snd k) (snd k') then Some e else pfind k t
    end.

  (* generate_power, 259-287; None: the recursion has not ended after fuel calls *)
  Fixpoint generate_power (fuel : nat) (x : pexp) (n : Z) (p : nat) (m : pmap) : option (pexp * pmap) :=
    match pfind (n, p) m with
    | Some e => Some (e, m)
    | None =>
        match fuel with
        | O => None
        | S f =>
            if n =? 1 then Some (x, ((n, p), x) :: m)
            else if n mod 2 =? 1 then
              match generate_power f x (n - 1) p m with
              | Some (e, m') => let r := EMul x e in Some (r, ((n, p), r) :: m')
              | None => None
              end
            else
              match generate_power f x (n / 2) p m with
              | Some (e, m') => let r := EMul e e in Some (r, ((n, p), r) :: m')
              | None => None
              end
        end
    end.

  (* generate_horner_scheme2, 308-369: the loop over coeff_list[1:-1];
     returns current_index, current_scheme *)
  Fixpoint horner_loop (fuel : nat) (x : pexp) (p : nat) (l : list (Z * pexp)) (ci : Z) (cs : pexp) (m : pmap)
    : option (Z * pexp * pmap) :=
    match l with
    | [] => Some (ci, cs, m)
    | (i, c) :: t =>
        match generate_power fuel x (ci - i) p m with
        | None => None
        | Some (d, m') => horner_loop fuel x p t i (EAdd c (EMul d cs)) m'
        end
    end.
  Definition horner_scheme2 (fuel : nat) (l : list (Z * pexp)) (x : pexp) (p : nat) (m : pmap) : option (pexp * pmap) :=
    match l with
    | [] => Some (ECst c0, m)
    | [(i, c)] =>
        if i =? 0 then Some (c, m)
        else match generate_power fuel x i p m with
             | Some (d, m') => Some (EMul d c, m')
             | None => None
             end
    | (i0, e0) :: t =>
        match horner_loop fuel x p (removelast t) i0 e0 m with
        | None => None
        | Some (ci, cs, m) =>
            let '(i, c) := last t (i0, e0) in
            if (is_cst_with_value c c1 || is_cst_with_value c cm1) && (i <=? 1) then
              match generate_power fuel x ci p m with
              | None => None
              | Some (d, m) =>
                  let mult := EMul d cs in
                  if i =? 0 then Some (EAdd c mult, m)
                  else if i =? 1 then
                    if is_cst_with_value c c1 then Some (EAdd x mult, m) else Some (ESub mult x, m)
                  else Some (cs, m)
              end
            else
              match generate_power fuel x (ci - i) p m with
              | None => None
              | Some (d, m) =>
                  let cs := EAdd c (EMul d cs) in
                  if 0 <? i then
                    match generate_power fuel x i p m with
                    | Some (d', m) => Some (EMul d' cs, m)
                    | None => None
                    end
                  else Some (cs, m)
              end
        end
    end.

  (* Polynomial: degree attribute and coeff_map (distinct indices) *)
  Record poly := mkpoly { degree : Z; coeffs : list (Z * C) }.
  (* __init__ from a list, 91-95: degree = number of coefficients *)
  Definition enumerate (l : list C) : list (Z * C) := combine (map Z.of_nat (seq 0 (length l))) l.
  Definition of_list (l : list C) : poly := mkpoly (Z.of_nat (length l)) (enumerate l).
  (* from a dict, 97-101; also what the Sollya constructor of 103-108 builds for
     a non-zero polynomial *)
  Definition of_dict (l : list (Z * C)) : poly := mkpoly (fold_left (fun d ic => if fst ic <=? d then d else fst ic) l 0) l.
  (* get_ordered_coeff_list, 162-170 *)
  Fixpoint insert_coeff (a : Z * C) (l : list (Z * C)) : list (Z * C) :=
    match l with [] => [a] | b :: t => if fst a <=? fst b then a :: l else b :: insert_coeff a t end.
  Definition ordered_coeff_list (P : poly) : list (Z * C) := fold_right insert_coeff [] (coeffs P).
  (* get_min_monomial_degree, 115-117: an exception (None) on no coefficient *)
  Definition min_degree (P : poly) : option Z :=
    match coeffs P with [] => None | a :: t => Some (fold_left (fun d ic => Z.min d (fst ic)) t (fst a)) end.
  (* sub_poly, 130-137 *)
  Definition sub_poly (P : poly) (start stop off : Z) : poly :=
    of_dict (map (fun ic => (fst ic - off, snd ic))
      (filter (fun ic => (start <=? fst ic) && (fst ic <=? stop)) (coeffs P))).

  (* generate_horner_scheme, 293-305 *)
  Definition horner_scheme (fuel : nat) (P : poly) (x : pexp) (p : nat) (m : pmap) : option (pexp * pmap) :=
    horner_scheme2 fuel (map (fun ic => (fst ic, ECst (snd ic))) (rev (ordered_coeff_list P))) x p m.

  (* generate_estrin_scheme, 395-417; pf is the fuel of the calls to generate_power *)
  Inductive eres := EOk (e : pexp) (m : pmap) | EError | EFuel.
  Fixpoint estrin_scheme (pf fuel : nat) (P : poly) (x : pexp) (p : nat) (m : pmap) : eres :=
    match fuel with
    | O => EFuel
    | S f =>
        match coeffs P with
        | [(i, c)] =>
            if i =? 0 then EOk (ECst c) m
            else match generate_power pf x i p m with
                 | Some (d, m') => EOk (EMul (ECst c) d) m'
                 | None => EFuel
                 end
        | _ =>
            match min_degree P with
            | None => EError
            | Some mn =>
                let pd := (degree P - mn + 2) / 2 + mn - 1 in
                let off := pd + 1 - mn in
                match estrin_scheme pf f (sub_poly P 0 pd 0) x p m with
                | EOk lo m =>
                    match estrin_scheme pf f (sub_poly P (pd + 1) (degree P) off) x p m with
                    | EOk hi m =>
                        match generate_power pf x off p m with
                        | Some (d, m) => EOk (EAdd lo (EMul d hi)) m
                        | None => EFuel
                        end
                    | r => r
                    end
                | r => r
                end
            end
        end
    end.
End Poly.
Arguments EVar {C}. Arguments ECst {C}. Arguments EAdd {C}. Arguments ESub {C}. Arguments EMul {C}.
Arguments EOk {C}. Arguments EError {C}. Arguments EFuel {C}.
