(* Model of parse/fold.c on integer expressions: getintlit, isintval, val, foldcast and fold.
   Simplified: types are widths with a signedness, so a cast between two names for the same representation (int and int32) is
   dropped here and kept in C; expr.idx and the folding of union tags, array lengths and sizes are not modelled.
   fold returns the nodes of constant declarations themselves and foldcast changes the type of such a node in place; here trees
   are not shared. *)
From Verif Require Import Base Word Fold_Spec.
Open Scope Z_scope.

Inductive fres := FOk (e : expr) | FDivZero | FUb.      (* FDivZero: fatal, :199-200, :212-213.  FUb: undefined behaviour of C *)
Definition vlong (z : Z) : Z := swrap 64 z.
(* :18-34; intval is 64 bits wide, chrval is an unsigned 32 bit number *)
Definition getintlit (e : expr) : option Z := match e with Lit _ k => Some (vlong k) | Chr _ c => Some (uwrap 32 c) | _ => None end.
Definition isintval (e : expr) (k : Z) : bool := match getintlit e with Some j => j =? k | None => false end.   (* :36-44 *)
Definition val (k : Z) (t : ity) : expr := Lit t (uwrap 64 k).                                                    (* :46-56 *)
Definition ity_eqb (a b : ity) : bool := (width a =? width b) && Bool.eqb (signed a) (signed b).
Definition retype (e : expr) (t : ity) : expr :=
  match e with
  | Lit _ k => Lit t k | Chr _ c => Chr t c | Var _ x => Var t x | Neg _ a => Neg t a
  | Bin o _ a b => Bin o t a b | Cast _ a => Cast t a | Call _ f a => Call t f a
  end.
Definition foldcast (t : ity) (e : expr) : expr :=                                                                (* :73-108 *)
  match getintlit e with Some _ => retype e t | None => if ity_eqb (ty e) t then retype e t else Cast t e end.
(* a C computation on vlongs *)
Definition fits64 (z : Z) : bool := (- 2 ^ 63 <=? z) && (z <? 2 ^ 63).
Definition signedval (z : Z) (t : ity) : fres := if fits64 z then FOk (val z t) else FUb.
Definition shiftval (b : Z) (z : Z) (t : ity) : fres := if (0 <=? b) && (b <? 64) then FOk (val z t) else FUb.
(* later assignments to r win *)
Definition foldbin (o : op) (t : ity) (x y : expr) : fres :=
  let n := FOk (Bin o t x y) in
  match getintlit x, getintlit y with
  | Some a, Some b =>
    match o with
    | Add => signedval (a + b) t                                         (* :173-174 *)
    | Sub => FOk (val (a - b) t)                                         (* :180-181 *)
    | Mul => signedval (a * b) t                                         (* :194-195 *)
    | Div => if b =? 0 then FDivZero else signedval (Z.quot a b) t       (* :207-208 *)
    | Mod => if b =? 0 then FDivZero else if fits64 (Z.quot a b) then FOk (val (Z.rem a b) t) else FUb   (* :217-218 *)
    | Shl => shiftval b (Z.shiftl (uwrap 64 a) b) t                      (* :224-227 *)
    | Shr => shiftval b (Z.shiftr a b) t                                 (* :228-231 *)
    | Or => FOk (val (Z.lor a b) t)                                      (* :232-235 *)
    | And => FOk (val (Z.land a b) t)                                    (* :236-239 *)
    | Xor => FOk (val (Z.lxor a b) t)                                    (* :240-243 *)
    end
  | _, _ =>
    match o with
    | Add => if isintval y 0 then FOk x else if isintval x 0 then FOk y else n       (* :167-172 *)
    | Sub => if isintval y 0 then FOk x else n                           (* :177-179 *)
    | Mul => if isintval y 0 then FOk y else if isintval x 0 then FOk x else
             if isintval y 1 then FOk x else if isintval x 1 then FOk y else n       (* :184-193 *)
    | Div => if isintval y 0 then FDivZero else if isintval y 1 then FOk x else n    (* :197-206 *)
    | Mod => if isintval y 0 then FDivZero else if isintval y 1 then FOk (val 0 t) else n   (* :210-216 *)
    | _ => n
    end
  end.
(* consts: the folded initialisers of small constants, when foldvar is set, :162-165 *)
Section Fold.
Variable consts : nat -> option expr.
Fixpoint fold (e : expr) : fres :=                                       (* :131-277; arguments first, left to right, :149-150 *)
  match e with
  | Lit _ _ | Chr _ _ => FOk e
  | Var _ x => FOk (match consts x with Some i => i | None => e end)
  | Neg t a => match fold a with
    | FOk x => match getintlit x with Some k => signedval (- k) t | None => FOk (Neg t x) end      (* :220-223 *)
    | r => r end
  | Bin o t a b => match fold a with
    | FOk x => match fold b with FOk y => foldbin o t x y | r => r end
    | r => r end
  | Cast t a => match fold a with FOk x => FOk (foldcast t x) | r => r end           (* :259-261 *)
  | Call t f a => match fold a with FOk x => FOk (Call t f x) | r => r end
  end.

(* an operand that folds to a literal: the literal is the operand's value, not just congruent to it *)
Definition exactlit (a : expr) : Prop := forall x k, fold a = FOk x -> getintlit x = Some k -> k = norm (ty a) k.
Fixpoint fits (e : expr) : Prop :=
  match e with
  | Lit _ _ | Chr _ _ | Var _ _ => True
  | Neg _ a | Call _ _ a => fits a
  | Cast t a => fits a /\ (width t <= width (ty a) \/ exactlit a)
  | Bin o _ a b => fits a /\ fits b /\ match o with Div | Mod => exactlit a /\ exactlit b | Shr => exactlit a | _ => True end
  end.
End Fold.
